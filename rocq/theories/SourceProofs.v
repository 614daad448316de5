(** Where the membership operations that a client has come from. *)
From Coq Require Import Arith Lia.
From stdpp Require Import base list gmap relations.
From Verif Require Import ResModel KeysModel TreeModel OpsModel CgkaModel.
From Verif Require Import AccessModel GroupModel CgkaSpec GroupSpec GroupHistory PrekeyModel HiveModel HiveSpec SyncModel DocModel DocSpec TransactModel ArriveModel SettleSpec SettleProofs SourceSpec.

(** ** Groups *)
Section groups.
Context (order : gset nat -> list nat) (e : gmap ident (gmap ident (list dlg))).
Lemma add_member_says g who can signer content s g' d : add_member order e g who can signer content s = GOk (g', d) -> d_sig d = s /\ d_issuer d = signer /\ d_delegate d = who /\ d_can d = can.
Proof.
  unfold add_member. cbv zeta. match goal with |- match ?X with _ => _ end = _ -> _ => destruct X as [p|] end; [|discriminate].
  destruct (receive_delegation _ _ _ _) as [g1|]; [|discriminate]. intros [= <- <-]. auto.
Qed.
Lemma revoke_one_says g signer d p content sigs g' r sigs' : revoke_one order e g signer d p content sigs = GOk (g', r, sigs') -> r_issuer r = signer /\ r_revoke r = d.
Proof. unfold revoke_one. destruct sigs as [|s sigs]; [discriminate|]. cbv zeta. destruct (receive_revocation _ _ _ _); [|discriminate]. intros [= <- <- <-]. auto. Qed.
Lemma as_admin_says signer target d content mine : forall g sigs g' rs sigs', revoke_as_admin order e g signer target d mine content sigs = GOk (g', rs, sigs') ->
  forall r, r ∈ rs -> r_issuer r = signer /\ r_revoke r = d.
Proof.
  induction mine as [|m mine IH]; intros g sigs g' rs sigs' E; cbn in E; [injection E as <- <- <-; intros r Hr; inversion Hr|].
  destruct (negb _ || negb _); [eapply IH; eauto|]. destruct (revoke_one _ _ _ _ _ _ _ _) as [[[g1 r1] sg1]|] eqn:R; [|discriminate]. apply revoke_one_says in R.
  destruct (revoke_as_admin _ _ g1 _ _ _ _ _ _) as [[[g2 rs2] sg2]|] eqn:R2; [|discriminate]. injection E as <- <- <-.
  intros r Hr. apply elem_of_cons in Hr as [->|Hr]; [exact R|]. exact (IH _ _ _ _ _ R2 r Hr).
Qed.
Lemma delegation_says signer target d content g sigs g' rs sigs' : revoke_delegation order e g signer target d content sigs = GOk (g', rs, sigs') ->
  forall r, r ∈ rs -> r_issuer r = signer /\ r_revoke r = d.
Proof.
  unfold revoke_delegation. destruct (revoke_as_admin _ _ _ _ _ _ _ _ _) as [[[g1 rs1] sg1]|] eqn:R1; [|discriminate]. pose proof (as_admin_says _ _ _ _ _ _ _ _ _ _ R1) as A. cbv zeta.
  assert (Fin : forall p g2 r2 sg2, revoke_one order e g1 signer d p content sg1 = GOk (g2, r2, sg2) -> forall r, r ∈ rs1 ++ [r2] -> r_issuer r = signer /\ r_revoke r = d).
  { intros p g2 r2 sg2 R. apply revoke_one_says in R. intros r Hr. apply elem_of_app in Hr as [Hr|Hr]; [auto|]. apply elem_of_list_singleton in Hr as ->. exact R. }
  destruct (if d_issuer d =? signer then _ else _) as [p|].
  - destruct (revoke_one _ _ _ _ _ _ _ _) as [[[g2 r2] sg2]|] eqn:R2; [|discriminate]. intros [= <- <- <-]. eapply Fin; eauto.
  - destruct rs1 as [|r1 rs1]; [|intros [= <- <- <-]; auto]. destruct (find_revoker _ _ _ _ _ _) as [[p|]|]; try discriminate.
    destruct (revoke_one _ _ _ _ _ _ _ _) as [[[g2 r2] sg2]|] eqn:R2; [|discriminate]. intros [= <- <- <-]. eapply Fin; eauto.
Qed.
Lemma delegations_says signer target content l : forall g sigs g' rs sigs', revoke_delegations order e g signer target l content sigs = GOk (g', rs, sigs') ->
  forall r, r ∈ rs -> r_issuer r = signer /\ r_revoke r ∈ l.
Proof.
  induction l as [|d l IH]; intros g sigs g' rs sigs' E; cbn in E; [injection E as <- <- <-; intros r Hr; inversion Hr|].
  match type of E with match ?X with _ => _ end = _ => destruct X as [[[g1 rs1] sg1]|] eqn:R1 end; [|discriminate].
  destruct (revoke_delegations _ _ g1 _ _ _ _ _) as [[[g2 rs2] sg2]|] eqn:R2; [|discriminate]. injection E as <- <- <-.
  assert (A : forall r, r ∈ rs1 -> r_issuer r = signer /\ r_revoke r = d).
  { destruct (signer =? gr_id g); [|eapply delegation_says; eauto]. destruct (revoke_one _ _ _ _ _ _ _ _) as [[[g3 r3] sg3]|] eqn:R3; [|discriminate]. injection R1 as <- <- <-.
    apply revoke_one_says in R3. intros r Hr. apply elem_of_list_singleton in Hr as ->. exact R3. }
  intros r Hr. apply elem_of_app in Hr as [Hr|Hr].
  - destruct (A r Hr) as [B ->]. split; [exact B|left].
  - destruct (IH _ _ _ _ _ R2 r Hr) as [B C]. split; [exact B|right; exact C].
Qed.
Lemma redelegate_says signer target content l : forall g sigs g' ns, redelegate order e g signer target l content sigs = GOk (g', ns) ->
  forall d, d ∈ ns -> d_issuer d = signer /\ exists d0, d0 ∈ l /\ d_delegate d = d_delegate d0 /\ d_can d = d_can d0 /\ d_delegate d <> target.
Proof.
  induction l as [|d l IH]; intros g sigs g' ns E; cbn in E; [injection E as <- <-; intros d Hd; inversion Hd|].
  match type of E with (if ?b then _ else _) = _ => destruct b eqn:B end.
  - destruct sigs as [|s sigs]; [discriminate|]. destruct (add_member _ _ _ _ _ _ _ _) as [[g1 d1]|] eqn:A; [|discriminate]. destruct (redelegate _ _ g1 _ _ _ _ _) as [[g2 ns2]|] eqn:R; [|discriminate]. injection E as <- <-.
    apply add_member_says in A as (_ & A1 & A2 & A3). intros x Hx. apply elem_of_cons in Hx as [->|Hx].
    + split; [exact A1|]. exists d. split; [left|]. split; [exact A2|]. split; [exact A3|]. rewrite A2. apply andb_true_iff in B as [B _]. apply negb_true_iff, Nat.eqb_neq in B. exact B.
    + destruct (IH _ _ _ _ R x Hx) as [I (d0 & D & Q)]. split; [exact I|]. exists d0. split; [right; exact D|exact Q].
  - intros x Hx. destruct (IH _ _ _ _ E x Hx) as [I (d0 & D & Q)]. split; [exact I|]. exists d0. split; [right; exact D|exact Q].
Qed.
Lemma revoke_member_says g target retain signer content sigs g' rs ns : revoke_member order e g target retain signer content sigs = GOk (g', rs, ns) ->
  (forall r, r ∈ rs -> r_issuer r = signer /\ exists l, gr_members g !! target = Some l /\ r_revoke r ∈ l) /\
  (forall d, d ∈ ns -> retain = true /\ d_issuer d = signer /\ exists d0 j l, gr_members g !! j = Some l /\ d0 ∈ l /\ d_delegate d = d_delegate d0 /\ d_can d = d_can d0 /\ d_delegate d <> target).
Proof.
  unfold revoke_member. cbv zeta. destruct (gr_members g !! target) as [l|] eqn:L; cbn [default id]; [|intros [= <- <- <-]; split; intros x Hx; inversion Hx].
  destruct l as [|d0 ds]; [intros [= <- <- <-]; split; intros x Hx; inversion Hx|].
  destruct (revoke_delegations _ _ _ _ _ _ _ _) as [[[g1 rs1] sg1]|] eqn:R1; [|discriminate]. pose proof (delegations_says _ _ _ _ _ _ _ _ _ R1) as A.
  assert (A' : forall r, r ∈ rs1 -> r_issuer r = signer /\ exists l, Some (d0 :: ds) = Some l /\ r_revoke r ∈ l) by (intros r Hr; destruct (A r Hr) as [X Y]; split; [exact X|]; exists (d0 :: ds); auto).
  destruct retain; [|intros [= <- <- <-]; split; [exact A'|intros x Hx; inversion Hx]].
  destruct (redelegate _ _ _ _ _ _ _ _) as [[g2 ns2]|] eqn:R2; [|discriminate]. intros [= <- <- <-]. split; [exact A'|]. intros d Hd.
  destruct (redelegate_says _ _ _ _ _ _ _ _ R2 d Hd) as [I (x & X & Q)]. split; [reflexivity|]. split; [exact I|].
  apply elem_of_list_In, in_concat in X as (l & Hl & X). apply elem_of_list_In in X, Hl. apply elem_of_list_omap in Hl as (j & _ & Lj). exists x, j, l. auto.
Qed.
End groups.

(** ** Clients *)
Lemma put_dlg_from (h : client) d o : has_op (put_dlg h d) o -> has_op h o \/ o = MD d.
Proof.
  destruct o as [x|x]; cbn; [|auto]. destruct (decide (d_sig d = d_sig x)) as [E|N]; [rewrite E, lookup_insert; intros [= ->]; auto|rewrite lookup_insert_ne by exact N; auto].
Qed.
Lemma put_rev_from (h : client) r o : has_op (put_rev h r) o -> has_op h o \/ o = MR r.
Proof.
  destruct o as [x|x]; cbn; [auto|]. destruct (decide (r_sig r = r_sig x)) as [E|N]; [rewrite E, lookup_insert; intros [= ->]; auto|rewrite lookup_insert_ne by exact N; auto].
Qed.
Lemma put_made_from (h : client) ds rs o : has_op (put_made h ds rs) o -> has_op h o \/ (exists d, d ∈ ds /\ o = MD d) \/ (exists r, r ∈ rs /\ o = MR r).
Proof.
  assert (D : forall ds (h : client), has_op (foldl put_dlg h ds) o -> has_op h o \/ exists d, d ∈ ds /\ o = MD d).
  { clear. induction ds as [|d ds IH]; intros h X; [auto|]. cbn in X. apply IH in X as [X|(y & Hy & ->)]; [|right; exists y; split; [right; exact Hy|reflexivity]].
    apply put_dlg_from in X as [X| ->]; [auto|]. right. exists d. split; [left|reflexivity]. }
  assert (R : forall rs (h : client), has_op (foldl put_rev h rs) o -> has_op h o \/ exists r, r ∈ rs /\ o = MR r).
  { clear. induction rs as [|d ds IH]; intros h X; [auto|]. cbn in X. apply IH in X as [X|(y & Hy & ->)]; [|right; exists y; split; [right; exact Hy|reflexivity]].
    apply put_rev_from in X as [X| ->]; [auto|]. right. exists d. split; [left|reflexivity]. }
  unfold put_made. intros X. apply R in X as [X|X]; [|auto]. apply D in X as [X|X]; auto.
Qed.
Lemma same_ops (h h' : client) o : same h h' -> has_op h' o -> has_op h o.
Proof. intros (_ & _ & E1 & E2 & _). destruct o; cbn; rewrite ?E1, ?E2; auto. Qed.
Lemma kept_ops (h h' : client) o : h_dlgs h' = h_dlgs h -> h_revs h' = h_revs h -> has_op h' o -> has_op h o.
Proof. intros E1 E2. destruct o; cbn; rewrite ?E1, ?E2; auto. Qed.

Section source.
Context (order : gset nat -> list nat) (horder : gset digest -> list digest) (rorder : gset (member_id * nat) -> list (member_id * nat)).

Lemma add_from pick h i who can content s hs h' r o : hive_add_member order horder rorder pick h i who can content s hs = (h', r) -> has_op h' o -> has_op h o \/ asked_adding h who can s o.
Proof.
  intros Q X. unfold hive_add_member in Q. destruct (any_loop order h); [injection Q as <- <-; auto|].
  assert (Made : forall g g' d, add_member order (h_env h) g who can (me h) content s = GOk (g', d) ->
    has_op (put_made (put_group h i g') [d] []) o \/ has_op (put_made (put_doc h i g') [d] []) o -> has_op h o \/ asked_adding h who can s o).
  { intros g g' d A T. apply add_member_says in A as (A1 & A2 & A3 & A4).
    assert (Y : has_op h o \/ (exists y, y ∈ [d] /\ o = MD y) \/ (exists r, r ∈ ([] : list rev) /\ o = MR r)).
    { destruct T as [Y|Y]; apply put_made_from in Y as [Y|Y]; auto; (left; revert Y; apply kept_ops; reflexivity). }
    destruct Y as [Y|[(y & Hy & ->)|(y & Hy & _)]]; [auto| |inversion Hy]. apply elem_of_list_singleton in Hy as ->. right. exists d. auto. }
  destruct (h_groups h !! i) as [g|].
  - destruct (add_member order (h_env h) g who can (me h) content s) as [[g' d]|] eqn:A; [|injection Q as <- <-; auto]. cbv zeta in Q. specialize (Made g g' d A).
    destruct (_ || _); [injection Q as <- <-; auto|]. destruct (is_reader can); [|injection Q as <- <-; auto].
    destruct (add_to_docs _ _ _ _ _ _ _ _ _) as [h2 [ops|er]] eqn:B; apply add_to_docs_same in B; injection Q as <- <-; apply Made; left; exact (same_ops _ _ _ B X).
  - destruct (h_docs h !! i) as [g|]; [|injection Q as <- <-; auto].
    destruct (add_member order (h_env h) g who can (me h) content s) as [[g' d]|] eqn:A; [|injection Q as <- <-; auto]. cbv zeta in Q. specialize (Made g g' d A).
    destruct (_ || _); [injection Q as <- <-; auto|]. destruct (is_reader can); [|injection Q as <- <-; auto].
    destruct (pick_prekeys _ _ _ _ _) as [l|]; [|injection Q as <- <-; auto].
    destruct (doc_add_keys _ _ _ _ _ _) as [h2 [ops|er]] eqn:B; apply add_keys_same in B; injection Q as <- <-; apply Made; right; exact (same_ops _ _ _ B X).
Qed.
Lemma revoke_from h i target retain content sigs hs h' r o : hive_revoke_member order horder rorder h i target retain content sigs hs = (h', r) -> has_op h' o -> has_op h o \/ asked_revoking h i target retain o.
Proof.
  intros Q X. unfold hive_revoke_member in Q. destruct (any_loop order h); [injection Q as <- <-; auto|].
  assert (Made : forall g g' rs ds, has_group h i g -> revoke_member order (h_env h) g target retain (me h) content sigs = GOk (g', rs, ds) ->
    has_op (put_made (put_group h i g') ds rs) o \/ has_op (put_made (put_doc h i g') ds rs) o -> has_op h o \/ asked_revoking h i target retain o).
  { intros g g' rs ds G A T. apply revoke_member_says in A as [A1 A2].
    assert (Y : has_op h o \/ (exists d, d ∈ ds /\ o = MD d) \/ (exists r, r ∈ rs /\ o = MR r)).
    { destruct T as [Y|Y]; apply put_made_from in Y as [Y|Y]; auto; (left; revert Y; apply kept_ops; reflexivity). }
    destruct Y as [Y|[(d & Hd & ->)|(y & Hy & ->)]]; [auto| |]; right; exists g; (split; [exact G|]).
    - right. destruct (A2 d Hd) as (B1 & B2 & d0 & j & l & B3 & B4 & B5 & B6 & B7). exists d, d0, j, l. auto 10.
    - left. destruct (A1 y Hy) as (B1 & l & B2 & B3). exists y, l. auto. }
  destruct (h_groups h !! i) as [g|] eqn:G.
  - destruct (behind _ _ _) as [ids|]; [|injection Q as <- <-; auto].
    destruct (revoke_member order (h_env h) g target retain (me h) content sigs) as [[[g' rs] ds]|] eqn:A; [|injection Q as <- <-; auto].
    destruct (revoking_hangs _ _ _ _ _); [injection Q as <- <-; auto|]. cbv zeta in Q. specialize (Made g g' rs ds (or_introl G) A).
    destruct (bool_decide _); [injection Q as <- <-; auto|]. destruct (remove_from_docs _ _ _ _ _ _ _ _) as [h2 [ops|er]] eqn:B; apply remove_from_docs_same in B; injection Q as <- <-; apply Made; left; exact (same_ops _ _ _ B X).
  - destruct (h_docs h !! i) as [g|] eqn:D; [|injection Q as <- <-; auto]. destruct (behind _ _ _) as [ids|]; [|injection Q as <- <-; auto].
    destruct (revoke_member order (h_env h) g target retain (me h) content sigs) as [[[g' rs] ds]|] eqn:A; [|injection Q as <- <-; auto].
    destruct (revoking_hangs _ _ _ _ _); [injection Q as <- <-; auto|]. cbv zeta in Q. specialize (Made g g' rs ds (or_intror D) A).
    destruct (group_individual_ids _ _ _) as [still|]; [|injection Q as <- <-; auto]. destruct (order _) as [|a gone]; [injection Q as <- <-; auto|].
    destruct (cgka_of _ i) as [c|]; [|injection Q as <- <-; auto].
    destruct (remove_keys _ _ _ _ _) as [c' [ops|er| |]]; injection Q as <- <-; apply Made; right; revert X; apply kept_ops; reflexivity.
Qed.
Lemma heads_from i parents content g d : generate_group order i parents content = Some g -> d ∈ map snd (map_to_list (gr_dheads g)) -> exists x, x ∈ parents /\ d = Dlg x.2 i x.1 Admin None [] content.
Proof.
  intros E Hd. apply elem_of_list_fmap in Hd as ([s d'] & -> & Hd). apply elem_of_map_to_list in Hd. unfold generate_group in E. destruct (rebuild_keeps _ _ _ E) as (_ & Eh & _). rewrite Eh in Hd. cbn in Hd.
  apply elem_of_list_to_map_2 in Hd. apply elem_of_list_fmap in Hd as (x & Ex & Hx). injection Ex as -> ->. exists x. auto.
Qed.
Lemma group_from h i parents content h' r o : hive_generate_group order h i parents content = (h', r) -> has_op h' o -> has_op h o \/ exists x, x ∈ parents /\ o = MD (Dlg x.2 i x.1 Admin None [] content).
Proof.
  intros Q X. unfold hive_generate_group in Q. destruct (generate_group order i parents content) as [g|] eqn:E; [|injection Q as <- <-; auto]. injection Q as <- <-.
  apply put_made_from in X as [X|[(d & Hd & ->)|(y & Hy & _)]]; [left; revert X; apply kept_ops; reflexivity| |inversion Hy]. right. destruct (heads_from _ _ _ _ _ E Hd) as (x & Hx & ->). eauto.
Qed.
Lemma doc_from pick h i parents content sk h0 hs hu rng h' r o : hive_generate_doc order horder rorder pick h i parents content sk h0 hs hu rng = (h', r) -> has_op h' o ->
  has_op h o \/ exists x, x ∈ parents /\ o = MD (Dlg x.2 i x.1 Admin None [] content).
Proof.
  intros Q X. unfold hive_generate_doc in Q. destruct (generate_group order i parents content) as [g|] eqn:E; [|injection Q as <- <-; auto]. destruct (prekey_individuals _ _ _ _ _) as [s|]; [|injection Q as <- <-; auto]. cbv zeta in Q.
  destruct (cgka_from_init _ _ _) as [c| | |]; [|injection Q as <- <-; auto..]. destruct (add_keys _ _ _ _ _) as [c1 [ops| | |]]; [|injection Q as <- <-; auto..].
  destruct (cgka_update _ _ _ _ _ _) as [c2 [[[x op] y]| | |]]; [|injection Q as <- <-; auto..]. injection Q as <- <-.
  assert (Y : has_op (put_made (new_document h i g) (map snd (map_to_list (gr_dheads g))) []) o) by (revert X; apply kept_ops; reflexivity).
  apply put_made_from in Y as [Y|[(d & Hd & ->)|(z & Hz & _)]]; [left; revert Y; apply kept_ops; reflexivity| |inversion Hz]. right. destruct (heads_from _ _ _ _ _ E Hd) as (z & Hz & ->). eauto.
Qed.
Lemma resolved_dlg (h : client) y d : sd_ok y = true -> resolve_dlg h y = Datatypes.inr d -> says h (EDlg y) (MD d).
Proof.
  intros K. unfold resolve_dlg, find_proof_dlg. intros R. cbn. split; [exact K|]. destruct (sd_proof y) as [s|].
  - destruct (h_dlgs h !! s) as [p|] eqn:E; [|discriminate]. destruct (known_agent h (sd_delegate y)); [|discriminate]. cbn in R. destruct (find_revs _ _) as [z|rs]; [discriminate|]. injection R as <-. cbn. eauto 10.
  - destruct (known_agent h (sd_delegate y)); [|discriminate]. cbn in R. destruct (find_revs _ _) as [z|rs]; [discriminate|]. injection R as <-. cbn. auto 10.
Qed.
Lemma resolved_rev (h : client) y r : sr_ok y = true -> resolve_rev h y = Datatypes.inr r -> says h (ERev y) (MR r).
Proof.
  intros K. unfold resolve_rev, find_proof_dlg. intros R. cbn. split; [exact K|]. destruct (h_dlgs h !! sr_revoke y) as [t|]; [|discriminate]. destruct (sr_proof y) as [s|].
  - destruct (h_dlgs h !! s) as [p|] eqn:E; [|discriminate]. injection R as <-. cbn. eauto 10.
  - injection R as <-. cbn. auto 10.
Qed.
Lemma receive_from doc_content h x h' r o : receive_event order doc_content do_doc do_ok (doc_receive horder rorder) h x = (h', r) -> has_op h' o -> has_op h o \/ says h x o.
Proof.
  intros Q X. destruct x as [k|c|y|y]; cbn [receive_event] in Q.
  - unfold receive_key_event in Q. destruct (PrekeyModel.receive_prekey_op (h_keys h) k) as [k' er]. injection Q as <- <-. left. revert X. apply kept_ops; reflexivity.
  - unfold receive_cgka in Q. destruct (negb _); [injection Q as <- <-; auto|]. destruct (h_docs h !! do_doc c); [|injection Q as <- <-; auto]. destruct (doc_receive _ _ _ _ _) as [z ok]. injection Q as <- <-. left. revert X. apply kept_ops; reflexivity.
  - unfold receive_dlg in Q. destruct (bool_decide _); [injection Q as <- <-; auto|]. destruct (sd_ok y) eqn:K; cbn [negb] in Q; [|injection Q as <- <-; auto].
    destruct (resolve_dlg h y) as [er|d] eqn:R; [injection Q as <- <-; auto|]. pose proof (resolved_dlg h y d K R) as Sy. cbv zeta in Q.
    assert (Put : forall h1 : client, h_dlgs h1 = h_dlgs h -> h_revs h1 = h_revs h -> has_op (put_dlg h1 d) o -> has_op h o \/ says h (EDlg y) o).
    { intros h1 E1 E2 Y. apply put_dlg_from in Y as [Y| ->]; [left; exact (kept_ops _ _ _ E1 E2 Y)|right; exact Sy]. }
    destruct (h_groups h !! d_subject d) as [g|].
    { destruct (delegation_hangs _ _ _ _); [injection Q as <- <-; auto|]. destruct (receive_delegation order (h_env h) g d) as [g'|er]; injection Q as <- <-; [|auto]. revert X. apply Put; reflexivity. }
    destruct (h_docs h !! d_subject d) as [g|].
    { destruct (delegation_hangs _ _ _ _); [injection Q as <- <-; auto|]. destruct (receive_delegation order (h_env h) g d) as [g'|er]; injection Q as <- <-; [|auto]. revert X. apply Put; reflexivity. }
    destruct (ks_indies (h_keys h) !! d_subject d).
    { destruct (promotion_panics _ _); injection Q as <- <-; revert X; apply Put; reflexivity. }
    destruct (new_group order d) as [g|]; [|injection Q as <- <-; auto]. injection Q as <- <-.
    assert (Y : has_op (put_dlg h d) o) by (destruct (doc_content _ _); revert X; apply kept_ops; reflexivity). revert Y. apply Put; reflexivity.
  - unfold receive_rev in Q. destruct (bool_decide _); [injection Q as <- <-; auto|]. destruct (sr_ok y) eqn:K; cbn [negb] in Q; [|injection Q as <- <-; auto].
    destruct (resolve_rev h y) as [er|d] eqn:R; [injection Q as <- <-; auto|]. pose proof (resolved_rev h y d K R) as Sy. cbv zeta in Q.
    assert (Put : forall h1 : client, h_dlgs h1 = h_dlgs h -> h_revs h1 = h_revs h -> has_op (put_rev h1 d) o -> has_op h o \/ says h (ERev y) o).
    { intros h1 E1 E2 Y. apply put_rev_from in Y as [Y| ->]; [left; exact (kept_ops _ _ _ E1 E2 Y)|right; exact Sy]. }
    destruct (h_groups h !! r_subject d) as [g|].
    { destruct (revocation_hangs _ _ _ _); [injection Q as <- <-; auto|]. destruct (receive_revocation order (h_env h) g d) as [g'|er]; injection Q as <- <-; [|auto]. revert X. apply Put; reflexivity. }
    destruct (h_docs h !! r_subject d) as [g|].
    { destruct (revocation_hangs _ _ _ _); [injection Q as <- <-; auto|]. destruct (receive_revocation order (h_env h) g d) as [g'|er]; injection Q as <- <-; [|auto]. revert X. apply Put; reflexivity. }
    destruct (ks_indies (h_keys h) !! r_subject d); [|injection Q as <- <-; auto].
    assert (Drop : has_op (drop_individual h (r_subject d)) o -> has_op h o) by (apply kept_ops; reflexivity).
    destruct (promotion_panics _ _); [injection Q as <- <-; auto|]. destruct (new_group order (r_revoke d)) as [g|]; [|injection Q as <- <-; auto]. destruct (revocation_hangs _ _ _ _); [injection Q as <- <-; auto|].
    destruct (receive_revocation _ _ _ _) as [g'|er]; injection Q as <- <-; [|auto]. revert X. apply Put; reflexivity.
Qed.
Lemma other_from h h' o : other_call horder rorder h h' -> (has_op h' o <-> has_op h o) /\ h_groups h' = h_groups h /\ h_docs h' = h_docs h.
Proof.
  assert (S : forall h h' : client, same h h' -> (has_op h' o <-> has_op h o) /\ h_groups h' = h_groups h /\ h_docs h' = h_docs h).
  { intros a b (E1 & E2 & E3 & E4 & _). split; [|auto]. destruct o; cbn; rewrite ?E3, ?E4; reflexivity. }
  intros C. apply S. clear S. destruct C as [h j sk x rng h' r Q|h j rf ct pr sk x rng h' r Q|h j e h' r Q|h mk sk h' y Q|h y|h l|h l].
  - unfold hive_update in Q. destruct (cgka_of h j) as [c|]; [|injection Q as <- <-; apply same_refl]. destruct (cgka_update _ _ _ _ _ _) as [c1 z]. injection Q as <- <-. apply cgka_same.
  - unfold hive_encrypt in Q. destruct (cgka_of h j) as [c|]; [|injection Q as <- <-; apply same_refl]. destruct (new_app_secret_for _ _ _ _ _ _ _ _ _) as [c1 z]. injection Q as <- <-. apply cgka_same.
  - unfold hive_decrypt in Q. destruct (cgka_of h j) as [c|]; [|injection Q as <- <-; apply same_refl]. destruct (decryption_key_for _ _ _) as [c1 [k| | |]]; injection Q as <- <-; apply cgka_same.
  - unfold make_prekey in Q. destruct (ks_indies (h_keys h) !! me h) as [x|]; [|discriminate]. destruct (mk _ _) as [a z]. apply (inj Some) in Q. injection Q as <- <-. repeat split.
  - unfold receive_contact_card. destruct (ks_indies (h_keys h) !! ko_issuer y) as [x|]; [destruct (receive_key x y)|]; repeat split.
  - repeat split.
  - repeat split.
Qed.
End source.
