(** Whoever is invited has the secret. *)
From Coq Require Import Arith Lia.
From stdpp Require Import base list gmap relations.
From Verif Require Import ResModel KeysModel TreeModel OpsModel OpsSpec OpsInv CgkaModel CgkaSpec CgkaProofs CgkaPropsProofs NetSpec NetProofs NetKeys NetAgree NetInv NetRun GrowReceive.
From Verif Require Import AccessModel GroupModel GroupSpec PrekeyModel PrekeySpec PrekeyProofs HiveModel HiveProofs SyncModel DocModel DocProofs TransactModel TeamSpec TeamProofs.
From Verif Require Import ArriveSpec ArriveProofs InviteModel InviteSpec.
Notation genuine := TeamSpec.genuine.


(** ** Which members the operations of a call add *)
Definition news (c c' : cgka) (A : ident -> share_key -> Prop) : Prop :=
  forall x o id pk i ps qs, g_ops (c_graph c') !! x = Some o -> so_op o = CAdd id pk i ps qs -> g_ops (c_graph c) !! x = Some o \/ A id pk.
Lemma news_same c c' A : c_graph c' = c_graph c -> news c c' A.
Proof. intros E x o id pk i ps qs. rewrite E. auto. Qed.
Lemma news_trans c c1 c2 A : news c c1 A -> news c1 c2 A -> news c c2 A.
Proof. intros N1 N2 x o id pk i ps qs G S. destruct (N2 _ _ _ _ _ _ _ G S) as [X|X]; [eapply N1; eauto|auto]. Qed.
Lemma news_weaken c c' (A B : ident -> share_key -> Prop) : (forall i k, A i k -> B i k) -> news c c' A -> news c c' B.
Proof. intros W N x o id pk i ps qs G S. destruct (N _ _ _ _ _ _ _ G S); auto. Qed.
Lemma news_local c c' op (A : ident -> share_key -> Prop) : c_graph c' = add_local_op (c_graph c) op ->
  (forall id pk i ps qs, so_op op = CAdd id pk i ps qs -> A id pk) -> news c c' A.
Proof.
  intros E Sh x o id pk i ps qs G S. rewrite E in G. cbn in G. apply lookup_insert_Some in G as [[<- <-]|[_ G]]; [right; eapply Sh, S|left; exact G].
Qed.
Section ops.
Context (ho : gset digest -> list digest) (ro : gset (member_id * nat) -> list (member_id * nat)).
Lemma add_news c id pk h c' x : cgka_add ho ro c id pk h = (c', x) -> news c c' (fun i k => i = id /\ k = pk).
Proof.
  unfold cgka_add. destruct (contains_id _ _); [intros Q; injection Q as <- <-; apply news_same; reflexivity|].
  destruct (maybe_replay ho ro c) as [c1|e| |] eqn:Em; intros Q; [|injection Q as <- <-; apply news_same; reflexivity..].
  apply maybe_replay_graph in Em as (G & _). destruct (push_leaf _ _ _) as [[t i]|e| |]; injection Q as <- <-; try (apply news_same; exact G).
  eapply news_local; [cbn [c_graph set_graph set_tree set_sks insert_pcs_key]; rewrite G; reflexivity|]. cbn [so_op]. intros ? ? ? ? ? Q. injection Q as <- <- _ _ _. auto.
Qed.
Lemma remove_news c id h c' x A : cgka_remove ho ro c id h = (c', x) -> news c c' A.
Proof.
  unfold cgka_remove. destruct (negb _); [intros Q; injection Q as <- <-; apply news_same; reflexivity|].
  destruct (maybe_replay ho ro c) as [c1|e| |] eqn:Em; intros Q; [|injection Q as <- <-; apply news_same; reflexivity..].
  apply maybe_replay_graph in Em as (G & _). destruct (_ =? 1); [injection Q as <- <-; apply news_same; exact G|].
  destruct (remove_id _ _) as [[t [i ks]]|e| |]; injection Q as <- <-; try (apply news_same; exact G).
  eapply news_local; [cbn [c_graph set_graph set_tree set_sks insert_pcs_key]; rewrite G; reflexivity|]. cbn [so_op]. discriminate.
Qed.
Lemma update_news c sk h rng c' x A : cgka_update ho ro c sk h rng = (c', x) -> news c c' A.
Proof.
  unfold cgka_update. destruct (maybe_replay ho ro c) as [c1|e| |] eqn:Em; intros Q; [|injection Q as <- <-; apply news_same; reflexivity..].
  apply maybe_replay_graph in Em as (G & _).
  destruct (update_identity _ _ _) as [[[id pk] sk']|e| |]; [|injection Q as <- <-; apply news_same; exact G..].
  destruct (encrypt_path _ _ _ _ _) as [[[[[t k] path] sks] rng']|e| |]; injection Q as <- <-; try (apply news_same; exact G).
  eapply news_local; [cbn [c_graph set_graph set_tree set_sks insert_pcs_key]; rewrite G; reflexivity|]. cbn [so_op]. discriminate.
Qed.
Lemma secret_news c ref content preds sk h rng c' x A : new_app_secret_for ho ro c ref content preds sk h rng = (c', x) -> news c c' A.
Proof.
  unfold new_app_secret_for. destruct (has_pcs_key c) as [[]|e| |].
  3-5: intros Q; injection Q as <- <-; apply news_same; reflexivity.
  - destruct (pcs_key_from_tree_root c) as [c1 r1] eqn:Er. apply root_graph in Er as [sks ->].
    destruct r1 as [k|e| |]; [|intros Q; injection Q as <- <-; apply news_same; reflexivity..].
    destruct (c_pcs _ !! _); [|destruct (ho _)]; destruct (c_pcs_ops _ !! _); intros Q; injection Q as <- <-; apply news_same; reflexivity.
  - destruct (cgka_update _ _ _ _ _ _) as [c1 r1] eqn:Eu. apply (update_news _ _ _ _ _ _ A) in Eu.
    destruct r1 as [[[k op] rng']|e| |]; [|intros Q; injection Q as <- <-; exact Eu..].
    destruct (c_pcs_ops _ !! _); intros Q; injection Q as <- <-; exact Eu.
Qed.
Lemma add_keys_news l : forall c hs c' x, add_keys ho ro c l hs = (c', x) -> news c c' (fun i k => (i, k) ∈ l).
Proof.
  induction l as [|[i pk] l IH]; intros c hs c' x; cbn [add_keys]; [intros Q; injection Q as <- _; apply news_same; reflexivity|].
  destruct hs as [|h hs]; [intros Q; injection Q as <- _; apply news_same; reflexivity|].
  destruct (cgka_add ho ro c i pk h) as [c1 x1] eqn:E1. apply add_news in E1.
  assert (N1 : news c c1 (fun j k => (j, k) ∈ (i, pk) :: l)) by (eapply news_weaken; [|exact E1]; intros j k [-> ->]; left).
  destruct x1 as [o|e| |]; try (intros Q; injection Q as <- _; exact N1).
  destruct (add_keys ho ro c1 l hs) as [c2 x2] eqn:E2. apply IH in E2. intros Q. assert (c' = c2) as -> by (destruct x2; injection Q; auto).
  eapply news_trans; [exact N1|]. eapply news_weaken; [|exact E2]. intros j k H. right. exact H.
Qed.
Lemma remove_keys_news A l : forall c hs c' x, remove_keys ho ro c l hs = (c', x) -> news c c' A.
Proof.
  induction l as [|i l IH]; intros c hs c' x; cbn [remove_keys]; [intros Q; injection Q as <- _; apply news_same; reflexivity|].
  destruct hs as [|h hs]; [intros Q; injection Q as <- _; apply news_same; reflexivity|].
  destruct (cgka_remove ho ro c i h) as [c1 x1] eqn:E1. apply (remove_news _ _ _ _ _ A) in E1.
  destruct x1 as [o|e| |]; try (intros Q; injection Q as <- _; exact E1).
  destruct (remove_keys ho ro c1 l hs) as [c2 x2] eqn:E2. apply IH in E2. intros Q. assert (c' = c2) as -> by (destruct x2; injection Q; auto). eapply news_trans; eauto.
Qed.
Lemma try_remove_keys_news A l : forall c hs c' x, try_remove_keys ho ro c l hs = (c', x) -> news c c' A.
Proof.
  induction l as [|i l IH]; intros c hs c' x; cbn [try_remove_keys]; [intros Q; injection Q as <- _; apply news_same; reflexivity|].
  destruct hs as [|h hs]; [intros Q; injection Q as <- _; apply news_same; reflexivity|].
  destruct (cgka_remove ho ro c i h) as [c1 x1] eqn:E1. apply (remove_news _ _ _ _ _ A) in E1.
  destruct x1 as [o|e| |]; try (intros Q; injection Q as <- _; exact E1).
  - destruct (try_remove_keys ho ro c1 l hs) as [c2 x2] eqn:E2. apply IH in E2. intros Q. assert (c' = c2) as -> by (destruct x2; injection Q; auto). eapply news_trans; eauto.
  - intros Q. apply IH in Q. eapply news_trans; eauto.
Qed.

(** ** Receiving adds only the operation received *)

Lemma merge_op_known c op c' r x o : merge_cgka_op ho ro c op = (c', r) -> knows c' !! x = Some o -> knows c !! x = Some o \/ (o = op /\ x = so_hash op).
Proof.
  unfold merge_cgka_op. destruct c as [c|].
  - destruct (merge_concurrent_operation ho ro c op) as [c1 r1] eqn:E. intros Q. injection Q as <- _. cbn [knows]. apply merge_step in E as (_ & _ & _ & [(_ & -> & _)|[(_ & _ & -> & _)|(_ & _ & [[_ G]|[_ G]])]]); auto; rewrite G; auto.
    cbn. intros H. apply lookup_insert_Some in H as [[<- <-]|[_ H]]; auto.
  - destruct (so_op op) as [id pk i preds qs| |] eqn:So; [|intros Q; injection Q as <- _; auto..]. destruct preds; [|intros Q; injection Q as <- _; auto].
    destruct (cgka_from_init id pk op) as [c1|e| |] eqn:E; intros Q; injection Q as <- _; auto. cbn [knows]. unfold cgka_from_init in E. apply rbind_ok in E as (t & _ & E). injection E as <-. cbn.
    intros H. apply lookup_singleton_Some in H as [<- <-]. auto.
Qed.
Lemma invite_op_known c op sk c' r x o : merge_cgka_invite_op ho ro c op sk = (c', r) -> knows c' !! x = Some o -> knows c !! x = Some o \/ (o = op /\ x = so_hash op).
Proof.
  unfold merge_cgka_invite_op. destruct (so_op op) eqn:So; [|intros Q; injection Q as <- _; auto..]. destruct c as [c|]; [|intros Q; injection Q as <- _; auto].
  destruct (negb _); [intros Q; injection Q as <- _; auto|]. intros Q H. eapply merge_op_known in Q; [|exact H]. exact Q.
Qed.
Lemma doc_receive_known k x o d y p : knows (cs_docs (doc_receive ho ro k x o).1 !! d) !! y = Some p ->
  knows (cs_docs x !! d) !! y = Some p \/ (d = do_doc o /\ p = do_op o /\ y = so_hash (do_op o)).
Proof.
  destruct (decide (d = do_doc o)) as [-> |N]; [|rewrite (docs_kept _ _ _ _ _ _ N); auto].
  assert (Put : forall c : option cgka, (knows c !! y = Some p -> knows (cs_docs x !! do_doc o) !! y = Some p \/ (p = do_op o /\ y = so_hash (do_op o))) ->
    knows (cs_docs (match c with Some c => Cgs (cs_pairs x) (<[do_doc o := c]> (cs_docs x)) | None => x end) !! do_doc o) !! y = Some p ->
    knows (cs_docs x !! do_doc o) !! y = Some p \/ (do_doc o = do_doc o /\ p = do_op o /\ y = so_hash (do_op o))).
  { intros [c|] H K; [|auto]. cbn in K. rewrite lookup_insert in K. destruct (H K) as [?|[? ?]]; auto. }
  unfold doc_receive. cbv zeta. assert (Plain : knows (cs_docs (let '(c, r) := merge_cgka_op ho ro (cs_docs x !! do_doc o) (do_op o) in
     (match c with Some c => Cgs (cs_pairs x) (<[do_doc o := c]> (cs_docs x)) | None => x end, match r with Ok _ => true | _ => false end)).1 !! do_doc o) !! y = Some p ->
    knows (cs_docs x !! do_doc o) !! y = Some p \/ (do_doc o = do_doc o /\ p = do_op o /\ y = so_hash (do_op o))).
  { destruct (merge_cgka_op ho ro _ _) as [c r] eqn:E. cbn [fst]. apply Put. intros H. eapply merge_op_known in E; [|exact H]. exact E. }
  destruct (so_op (do_op o)) as [id pk i ps qs| |]; [|exact Plain..]. destruct (id =? ks_active k).
  - destruct (cs_pairs x !! pk) as [sk|]; [|auto]. destruct (merge_cgka_invite_op ho ro _ _ _) as [c r] eqn:E. cbn [fst]. apply Put. intros H. eapply invite_op_known in E; [|exact H]. exact E.
  - destruct (id =? ks_public k); [|exact Plain]. destruct (merge_cgka_invite_op ho ro _ _ _) as [c r] eqn:E. destruct r as [b|e| |].
    2-4: cbn [fst]; apply Put; intros H; eapply invite_op_known in E; [|exact H]; exact E.
    destruct (reset_cgka_owner c _) as [c2 r2] eqn:E2. cbn [fst]. apply Put. intros H.
    assert (K : knows c2 = knows c) by (unfold reset_cgka_owner in E2; destruct c; injection E2 as <- _; reflexivity). rewrite K in H. eapply invite_op_known in E; [|exact H]. exact E.
Qed.
End ops.

(** ** What calls leave alone *)
Section keys.
Context (order : gset nat -> list nat) (ho : gset digest -> list digest) (ro : gset (member_id * nat) -> list (member_id * nat)) (pick : ident -> ident -> share_key).
Lemma doc_add_keys_keys h i l hs h' x : doc_add_keys ho ro h i l hs = (h', x) -> h_keys h' = h_keys h.
Proof. unfold doc_add_keys. repeat case_match; intros Q; injection Q as <- _; reflexivity. Qed.
Lemma add_to_docs_keys gid who hs docs : forall h h' x, add_to_docs order ho ro pick h gid who docs hs = (h', x) -> h_keys h' = h_keys h.
Proof.
  induction docs as [|j docs IH]; intros h h' x; cbn [add_to_docs]; [intros Q; injection Q as <- _; reflexivity|].
  destruct (h_docs h !! j) as [g|]; [|apply IH]. destruct (negb _); [apply IH|]. destruct (pick_prekeys _ _ _ _ _) as [l|]; [|intros Q; injection Q as <- _; reflexivity].
  destruct (doc_add_keys ho ro h j l (hs j)) as [h1 x1] eqn:E1. apply doc_add_keys_keys in E1. destruct x1 as [ops|e]; [|intros Q; injection Q as <- _; exact E1].
  destruct (add_to_docs _ _ _ _ h1 _ _ _ _) as [h2 x2] eqn:E2. apply IH in E2. intros Q. assert (h' = h2) as -> by (destruct x2; injection Q; auto). congruence.
Qed.
Lemma put_made_keys h ds rs : h_keys (put_made h ds rs) = h_keys h.
Proof. destruct (proj1 (put_made_core h ds rs)) as (_ & _ & E). exact E. Qed.
Lemma add_member_keys h i who can content s hs h' x : hive_add_member order ho ro pick h i who can content s hs = (h', x) -> h_keys h' = h_keys h.
Proof.
  unfold hive_add_member. destruct (any_loop _ h); [intros Q; injection Q as <- _; reflexivity|]. destruct (h_groups h !! i) as [g|].
  - destruct (add_member _ _ _ _ _ _ _ _) as [[g' d]|e]; [|intros Q; injection Q as <- _; reflexivity]. cbv zeta.
    assert (Eq : h_keys (put_made (put_group h i g') [d] []) = h_keys h) by (rewrite put_made_keys; reflexivity). set (h1 := put_made _ _ _) in *.
    destruct (_ || _); [intros Q; injection Q as <- _; exact Eq|]. destruct (is_reader can); [|intros Q; injection Q as <- _; exact Eq].
    destruct (add_to_docs _ _ _ _ h1 _ _ _ _) as [h2 x2] eqn:E2. apply add_to_docs_keys in E2. intros Q. assert (h' = h2) as -> by (destruct x2; injection Q; auto). congruence.
  - destruct (h_docs h !! i) as [g|]; [|intros Q; injection Q as <- _; reflexivity].
    destruct (add_member _ _ _ _ _ _ _ _) as [[g' d]|e]; [|intros Q; injection Q as <- _; reflexivity]. cbv zeta.
    assert (Eq : h_keys (put_made (put_doc h i g') [d] []) = h_keys h) by (rewrite put_made_keys; reflexivity). set (h1 := put_made _ _ _) in *.
    destruct (_ || _); [intros Q; injection Q as <- _; exact Eq|]. destruct (is_reader can); [|intros Q; injection Q as <- _; exact Eq].
    destruct (pick_prekeys _ _ _ _ _) as [l|]; [|intros Q; injection Q as <- _; exact Eq].
    destruct (doc_add_keys _ _ h1 _ _ _) as [h2 x2] eqn:E2. apply doc_add_keys_keys in E2. intros Q. assert (h' = h2) as -> by (destruct x2; injection Q; auto). congruence.
Qed.
Lemma remove_from_docs_keys gid ids hs docs : forall h h' x, remove_from_docs order ho ro h gid ids docs hs = (h', x) -> h_keys h' = h_keys h.
Proof.
  induction docs as [|j docs IH]; intros h h' x; cbn [remove_from_docs]; [intros Q; injection Q as <- _; reflexivity|].
  destruct (h_docs h !! j) as [g|]; [|apply IH]. destruct (caps_of _ _ _) as [caps|]; [|intros Q; injection Q as <- _; reflexivity].
  destruct (bool_decide _); [|apply IH]. cbv zeta. destruct (cgka_of h j) as [c|]; [|apply IH].
  destruct (try_remove_keys _ _ c _ (hs j)) as [c1 x1]. destruct x1 as [ops|e| |]; try (intros Q; injection Q as <- _; reflexivity).
  destruct (remove_from_docs _ _ _ (put_cgka h j c1) _ _ _ _) as [h2 x2] eqn:E2. apply IH in E2. intros Q. assert (h' = h2) as -> by (destruct x2; injection Q; auto). exact E2.
Qed.
Lemma revoke_member_keys h i target retain content sigs hs h' x : hive_revoke_member order ho ro h i target retain content sigs hs = (h', x) -> h_keys h' = h_keys h.
Proof.
  unfold hive_revoke_member. destruct (any_loop _ h); [intros Q; injection Q as <- _; reflexivity|]. destruct (h_groups h !! i) as [g|].
  - destruct (behind _ _ _) as [ids|]; [|intros Q; injection Q as <- _; reflexivity].
    destruct (revoke_member _ _ _ _ _ _ _ _) as [[[g' rs] ds]|e]; [|intros Q; injection Q as <- _; reflexivity].
    destruct (revoking_hangs _ _ _ _ _); [intros Q; injection Q as <- _; reflexivity|]. cbv zeta.
    assert (Eq : h_keys (put_made (put_group h i g') ds rs) = h_keys h) by (rewrite put_made_keys; reflexivity). set (h1 := put_made _ _ _) in *.
    destruct (bool_decide _); [intros Q; injection Q as <- _; exact Eq|].
    destruct (remove_from_docs _ _ _ h1 _ _ _ _) as [h2 x2] eqn:E2. apply remove_from_docs_keys in E2. intros Q. assert (h' = h2) as -> by (destruct x2; injection Q; auto). congruence.
  - destruct (h_docs h !! i) as [g|]; [|intros Q; injection Q as <- _; reflexivity].
    destruct (behind _ _ _) as [ids|]; [|intros Q; injection Q as <- _; reflexivity].
    destruct (revoke_member _ _ _ _ _ _ _ _) as [[[g' rs] ds]|e]; [|intros Q; injection Q as <- _; reflexivity].
    destruct (revoking_hangs _ _ _ _ _); [intros Q; injection Q as <- _; reflexivity|]. cbv zeta.
    assert (Eq : h_keys (put_made (put_doc h i g') ds rs) = h_keys h) by (rewrite put_made_keys; reflexivity). set (h1 := put_made _ _ _) in *.
    destruct (group_individual_ids _ _ _) as [still|]; [|intros Q; injection Q as <- _; exact Eq].
    destruct (order (ids ∖ still)) as [|a l]; [intros Q; injection Q as <- _; exact Eq|].
    destruct (cgka_of h1 i) as [c|]; [|intros Q; injection Q as <- _; exact Eq].
    destruct (remove_keys _ _ c (a :: l) (hs i)) as [c1 x1]. intros Q. assert (h' = put_cgka h1 i c1) as -> by (destruct x1; injection Q; auto). exact Eq.
Qed.
End keys.

(** ** What is on record *)
Lemma receive_key_spec x o x' e : receive_key x o = (x', e) -> (x' = x) \/ (in_ops x' = {[ o ]} ∪ in_ops x /\ in_prekeys x' = build (in_ops x')).
Proof. unfold receive_key. destruct (negb _); [intros Q; injection Q as <- _; auto|]. destruct (negb _); intros Q; injection Q as <- _; auto. Qed.
(** Records after receiving [o]. *)
Definition noted (o : keyop) (s s' : kstore) : Prop :=
  ks_active s' = ks_active s /\ forall j x', ks_indies s' !! j = Some x' -> ks_indies s !! j = Some x' \/
    (j = ko_issuer o /\ in_prekeys x' = build (in_ops x') /\ forall p, p ∈ in_ops x' -> p = o \/ exists x, ks_indies s !! j = Some x /\ p ∈ in_ops x).
Lemma noted_indie s o x e (old : option individual) : ks_indies s !! ko_issuer o = old ->
  receive_key (match old with Some x => x | None => individual_new o end) o = (x, e) -> noted o s (set_indie s (ko_issuer o) x).
Proof.
  intros E Q. split; [reflexivity|]. intros j x' L. cbn in L. apply lookup_insert_Some in L as [[<- <-]|[_ L]]; [|left; exact L].
  destruct old as [x0|].
  - apply receive_key_spec in Q as [->|[A B]]; [left; exact E|]. right. split; [reflexivity|]. split; [exact B|]. intros p Hp. rewrite A in Hp. apply elem_of_union in Hp as [Hp|Hp]; [left; apply elem_of_singleton in Hp; exact Hp|right; eauto].
  - right. split; [reflexivity|]. apply receive_key_spec in Q as [->|[A B]].
    + split; [reflexivity|]. intros p Hp. left. cbn in Hp. apply elem_of_singleton in Hp. exact Hp.
    + split; [exact B|]. intros p Hp. left. rewrite A in Hp. cbn in Hp. apply elem_of_union in Hp as [Hp|Hp]; apply elem_of_singleton in Hp; exact Hp.
Qed.
Lemma noted_same s s' o : ks_active s' = ks_active s -> ks_indies s' = ks_indies s -> noted o s s'.
Proof. intros A B. split; [exact A|]. intros j x'. rewrite B. auto. Qed.
Lemma receive_noted s o : noted o s (receive_prekey_op s o).1.
Proof.
  unfold receive_prekey_op. cbv zeta. destruct (_ =? ks_public s); [apply noted_same; reflexivity|]. destruct (_ =? ks_active s).
  - destruct (ks_indies s !! ko_issuer o) as [x|] eqn:E; [|apply noted_same; reflexivity]. destruct (receive_key x o) as [x' e] eqn:Q. cbn [fst]. eapply (noted_indie s o x' e (Some x)); [exact E|exact Q].
  - destruct (ks_docs s !! _) as [[x|]|].
    + destruct (receive_key x o). apply noted_same; reflexivity.
    + apply noted_same; reflexivity.
    + destruct (ks_groups s !! _) as [[x|]|].
      * destruct (receive_key x o). apply noted_same; reflexivity.
      * apply noted_same; reflexivity.
      * destruct (receive_key _ o) as [x' e] eqn:Q. cbn [fst]. eapply noted_indie; [reflexivity|exact Q].
Qed.
Lemma card_noted s o : noted o s (receive_contact_card s o).1.
Proof.
  unfold receive_contact_card. cbv zeta. destruct (ks_indies s !! ko_issuer o) as [x|] eqn:E.
  - destruct (receive_key x o) as [x' e] eqn:Q. cbn [fst]. eapply (noted_indie s o x' e (Some x)); [exact E|exact Q].
  - cbn [fst]. split; [reflexivity|]. intros j x' L. cbn in L. apply lookup_insert_Some in L as [[<- <-]|[_ L]]; [right|left; exact L].
    split; [reflexivity|]. split; [reflexivity|]. intros p Hp. left. cbn in Hp. apply elem_of_singleton in Hp. exact Hp.
Qed.
Definition named (s : kstore) : Prop := forall i x, ks_indies s !! i = Some x -> in_id x = i.
Lemma receive_key_id x o : in_id (receive_key x o).1 = in_id x.
Proof. unfold receive_key. destruct (negb _); [reflexivity|]. destruct (negb _); reflexivity. Qed.
Lemma named_set s i x : named s -> in_id x = i -> named (set_indie s i x).
Proof. intros N E j y L. cbn in L. apply lookup_insert_Some in L as [[<- <-]|[_ L]]; [exact E|exact (N _ _ L)]. Qed.
Lemma receive_named s o : named s -> named (receive_prekey_op s o).1.
Proof.
  intros N. unfold receive_prekey_op. cbv zeta. destruct (_ =? ks_public s); [exact N|]. destruct (_ =? ks_active s).
  - destruct (ks_indies s !! ko_issuer o) as [x|] eqn:E; [|exact N]. pose proof (receive_key_id x o) as Q. destruct (receive_key x o) as [x' e]. apply named_set; [exact N|]. cbn in Q. rewrite Q. exact (N _ _ E).
  - destruct (ks_docs s !! _) as [[x|]|]; [destruct (receive_key x o); exact N|exact N|]. destruct (ks_groups s !! _) as [[x|]|]; [destruct (receive_key x o); exact N|exact N|].
    pose proof (receive_key_id (match ks_indies s !! ko_issuer o with Some x => x | None => individual_new o end) o) as Q. destruct (receive_key _ o) as [x' e]. apply named_set; [exact N|]. cbn in Q. rewrite Q.
    destruct (ks_indies s !! ko_issuer o) as [x|] eqn:E; [exact (N _ _ E)|reflexivity].
Qed.
Lemma card_named s o : named s -> named (receive_contact_card s o).1.
Proof.
  intros N. unfold receive_contact_card. cbv zeta. destruct (ks_indies s !! ko_issuer o) as [x|] eqn:E; [|apply named_set; [exact N|reflexivity]].
  pose proof (receive_key_id x o) as Q. destruct (receive_key x o) as [x' e]. apply named_set; [exact N|]. cbn in Q. rewrite Q. exact (N _ _ E).
Qed.
Lemma other_records order doc_content ho ro (h : client) x h' y : match x with EKey _ => False | _ => True end ->
  receive_event order doc_content do_doc do_ok (doc_receive ho ro) h x = (h', y) -> me h' = me h /\ ks_indies (h_keys h') ⊆ ks_indies (h_keys h).
Proof.
  intros O R. destruct x as [o|o|d|r']; cbn [receive_event] in R; [destruct O| | |].
  - unfold receive_cgka in R. destruct (negb _); [injection R as <- _; split; reflexivity|]. destruct (h_docs h !! _); [|injection R as <- _; split; reflexivity].
    destruct (doc_receive _ _ _ _ _). injection R as <- _. split; reflexivity.
  - unfold receive_dlg in R. repeat match type of R with
        | (if ?b then _ else _) = _ => destruct b
        | match ?m with _ => _ end = _ => destruct m
        | (let _ := _ in _) = _ => cbv zeta in R
        end; injection R as <- _; try (split; reflexivity); try (destruct (doc_content _ _); split; reflexivity); split; try reflexivity; cbn; apply delete_subseteq.
  - unfold receive_rev in R. repeat match type of R with
        | (if ?b then _ else _) = _ => destruct b
        | match ?m with _ => _ end = _ => destruct m
        | (let _ := _ in _) = _ => cbv zeta in R
        end; injection R as <- _; try (split; reflexivity); try (destruct (doc_content _ _); split; reflexivity); split; try reflexivity; cbn; apply delete_subseteq.
Qed.
Lemma receive_pairs order doc_content ho ro (h : client) x h' y :
  receive_event order doc_content do_doc do_ok (doc_receive ho ro) h x = (h', y) -> cs_pairs (h_cg h') = cs_pairs (h_cg h).
Proof.
  intros R. destruct x as [o|o|d|r'].
  - rewrite (other_events (fun _ => order) (fun _ => ho) (fun _ => ro) doc_content h (EKey o) h' y 0 I R). reflexivity.
  - cbn [receive_event] in R. unfold receive_cgka in R. destruct (negb _); [injection R as <- _; reflexivity|]. destruct (h_docs h !! _); [|injection R as <- _; reflexivity].
    pose proof (pairs_kept ho ro (h_keys h) (h_cg h) o) as Pk. destruct (doc_receive _ _ _ _ _) as [z ok]. injection R as <- _. exact Pk.
  - rewrite (other_events (fun _ => order) (fun _ => ho) (fun _ => ro) doc_content h (EDlg d) h' y 0 I R). reflexivity.
  - rewrite (other_events (fun _ => order) (fun _ => ho) (fun _ => ro) doc_content h (ERev r') h' y 0 I R). reflexivity.
Qed.

(** ** Every step of a team *)
Section team.
Context (order : nat -> gset nat -> list nat) (ho : nat -> gset digest -> list digest) (ro : nat -> gset (member_id * nat) -> list (member_id * nat)).
Context (pick : nat -> client -> ident -> ident -> share_key) (doc_content : nat -> ident -> bool).
Context (HO : forall r, some_order (order r)) (HH : forall r, some_order (ho r)) (HR : forall r, some_order (ro r)).

Record facts (t t' : team) (r : nat) (h h' : client) : Prop := Facts {
  f_client : tm_clients t !! r = Some h;
  f_clients : tm_clients t' = <[r := h']> (tm_clients t);
  f_ops : forall d, tm_ops t' d = tm_ops t d ∪ known_ops h' d;
  f_me : me h' = me h;
  f_pairs : forall k, is_Some (cs_pairs (h_cg h) !! k) -> is_Some (cs_pairs (h_cg h') !! k);
  f_new : forall d x o id pk i ps qs, known_ops h' d !! x = Some o -> tm_ops t d !! x = None -> so_op o = CAdd id pk i ps qs -> id = d \/ pk = pick r h id d
}.
Lemma went_facts t r h h' : team_good ho ro t -> tm_clients t !! r = Some h -> me h' = me h ->
  (forall k, is_Some (cs_pairs (h_cg h) !! k) -> is_Some (cs_pairs (h_cg h') !! k)) ->
  (forall d, cgka_of h' d = cgka_of h d \/ exists c c', cgka_of h d = Some c /\ cgka_of h' d = Some c' /\ news c c' (fun i k => k = pick r h i d)) -> facts t (went t r h') r h h'.
Proof.
  intros G E M Pr N. split; [exact E|reflexivity|reflexivity|exact M|exact Pr|]. intros d x o id pk i ps qs K U S.
  assert (Old : known_ops h d !! x = Some o -> False) by (intros X; pose proof (lookup_weaken _ _ _ _ X (known_made ho ro HH HR t r h d G E)); congruence).
  destruct (N d) as [Eq|(c & c' & Ec & Ec' & Nw)].
  - exfalso. apply Old. unfold known_ops in *. rewrite <- Eq. exact K.
  - unfold known_ops in K. rewrite Ec' in K. destruct (Nw _ _ _ _ _ _ _ K S) as [X|X]; [|right; exact X]. exfalso. apply Old. unfold known_ops. rewrite Ec. exact X.
Qed.
Lemma idle_facts t r h h' : team_good ho ro t -> tm_clients t !! r = Some h -> me h' = me h -> h_cg h' = h_cg h -> facts t (went t r h') r h h'.
Proof. intros G E M C. apply went_facts; auto; [rewrite C; auto|]. intros d. left. unfold cgka_of. rewrite C. reflexivity. Qed.
Lemma touched_facts run t r h h' : team_good ho ro t -> tm_clients t !! r = Some h -> me h' = me h -> touched run (fun _ => True) h h' ->
  (forall d c c', run d c c' -> news c c' (fun i k => k = pick r h i d)) -> facts t (went t r h') r h h'.
Proof.
  intros G E M [P T] Rn. apply went_facts; auto; [rewrite P; auto|]. intros d. destruct (T d) as [Eq|(_ & c & c' & A & B & C)]; [auto|]. right. eauto 6.
Qed.
Lemma one_facts t r h d c c' : team_good ho ro t -> tm_clients t !! r = Some h -> cgka_of h d = Some c -> news c c' (fun i k => k = pick r h i d) -> facts t (went t r (put_cgka h d c')) r h (put_cgka h d c').
Proof.
  intros G E Ec N. apply went_facts; auto. intros d'. rewrite cgka_put. case_decide as D; [|auto]. subst d'. right. eauto 6.
Qed.
Lemma step_facts t t' : team_good ho ro t -> team_step order ho ro pick doc_content t t' -> exists r h h', facts t t' r h h'.
Proof.
  intros G S. destruct S as [r h i parents content h' x E Q|r h i parents content sk h0 hs hu rng h' x E Z ND Q|r h i who can content s hs h' x E U Q|r h i target retain content sigs hs h' x E U Q|r h d sk x rng h' y E U Q|r h d ref content preds sk x rng h' e o E U Q|r h d ref content preds sk x rng h' y E U Q|r h d e h' y E He Q|r h x h' y E Ge Q|r h make sk h' o E Q|r h o E|r h l E|r h l E Gl]; exists r, h.
  - exists h'. unfold hive_generate_group in Q. destruct (generate_group _ _ _ _) as [g|]; injection Q as <- _; apply (idle_facts _ _ _ _ G E); try reflexivity.
    + unfold me. rewrite put_made_keys. reflexivity.
    + rewrite (proj2 (put_made_core _ _ _)). reflexivity.
  - exists h'. unfold hive_generate_doc in Q. assert (Idle : forall z, (h, DErr z) = (h', x) -> facts t (went t r h') r h h') by (intros z Q'; injection Q' as <- _; apply (idle_facts _ _ _ _ G E); reflexivity).
    destruct (generate_group _ _ _ _) as [g|]; [|eapply Idle, Q]. destruct (prekey_individuals _ _ _ _ _) as [s|]; [|eapply Idle, Q]. cbv zeta in Q.
    destruct (cgka_from_init _ _ _) as [c|z| |] eqn:E0; try (eapply Idle, Q). destruct (add_keys _ _ _ _ _) as [c1 x1] eqn:E1. destruct x1 as [ops|z| |]; try (eapply Idle, Q).
    destruct (cgka_update _ _ c1 sk hu rng) as [c2 x2] eqn:E2. destruct x2 as [[[k op] tr]|z| |]; try (eapply Idle, Q).
    clear Idle. injection Q as <- _. set (h1 := put_made _ _ _).
    assert (Eq : h_cg h1 = h_cg h) by (unfold h1; rewrite (proj2 (put_made_core _ _ _)); reflexivity). assert (Mq : me h1 = me h) by (unfold me, h1; rewrite put_made_keys; reflexivity). clearbody h1.
    split; [exact E|reflexivity|reflexivity|exact Mq|intros kk; change (is_Some (cs_pairs (h_cg h) !! kk) -> is_Some (cs_pairs (h_cg h1) !! kk)); rewrite Eq; auto|].
    intros d y o id pk j ps qs K Ud So. destruct (decide (d = i)) as [-> |Nd].
    + unfold known_ops in K. rewrite cgka_put, decide_True in K by reflexivity.
      pose proof (update_news _ _ _ _ _ _ _ _ (fun j k => k = pick r h j i) E2) as N2. apply add_keys_news in E1.
      destruct (N2 _ _ _ _ _ _ _ K So) as [K1|X]; [|right; exact X]. destruct (E1 _ _ _ _ _ _ _ K1 So) as [K0|X].
      * cbn [with_new_owner c_graph] in K0. rewrite (init_graph _ _ _ _ E0) in K0. apply lookup_singleton_Some in K0 as [_ <-]. cbn [so_op init_add] in So. left. injection So as <- _ _ _ _. reflexivity.
      * right. apply elem_of_list_fmap in X as (jj & Qj & _). congruence.
    + exfalso. unfold known_ops in K. rewrite cgka_put, decide_False in K by exact Nd. unfold cgka_of in K. rewrite Eq in K.
      pose proof (lookup_weaken _ _ _ _ K (known_made ho ro HH HR t r h d G E)). congruence.
  - exists h'. eapply touched_facts; [exact G|exact E|unfold me; rewrite (add_member_keys _ _ _ _ _ _ _ _ _ _ _ _ _ Q); reflexivity|eapply add_member_touched; [apply HO|exact Q]|].
    intros d c c' (l & y & A & Pk). apply add_keys_news in A. eapply news_weaken; [|exact A]. intros j k Hj. exact (Pk _ _ Hj).
  - exists h'. eapply touched_facts; [exact G|exact E|unfold me; rewrite (revoke_member_keys _ _ _ _ _ _ _ _ _ _ _ _ Q); reflexivity|eapply revoke_member_touched; [apply HO|exact Q]|].
    intros d c c' [(l & y & A)|(l & y & A)]; [eapply remove_keys_news, A|eapply try_remove_keys_news, A].
  - exists h'. unfold hive_update in Q. destruct (cgka_of h d) as [c|] eqn:Ec; [|injection Q as <- _; apply (idle_facts _ _ _ _ G E); reflexivity]. destruct (cgka_update _ _ c sk x rng) as [c' z] eqn:Eu. injection Q as <- _.
    eapply one_facts; [exact G|exact E|exact Ec|eapply update_news, Eu].
  - exists h'. unfold hive_encrypt in Q. destruct (cgka_of h d) as [c|] eqn:Ec; [|discriminate]. destruct (new_app_secret_for _ _ c _ _ _ _ _ _) as [c' z] eqn:Eu. destruct z as [[s p]| | |]; cbn in Q; try discriminate. injection Q as <- <- _.
    destruct (one_facts t r h d c c' G E Ec (secret_news _ _ _ _ _ _ _ _ _ _ _ _ Eu)) as [A B C D F N]. split; assumption.
  - exists h'. unfold hive_encrypt in Q. destruct (cgka_of h d) as [c|] eqn:Ec; [|injection Q as <- _; apply (idle_facts _ _ _ _ G E); reflexivity]. destruct (new_app_secret_for _ _ c _ _ _ _ _ _) as [c' z] eqn:Eu.
    assert (h' = put_cgka h d c') as -> by (destruct z as [[s p]| | |]; cbn in Q; [discriminate|injection Q; auto..]).
    eapply one_facts; [exact G|exact E|exact Ec|eapply secret_news, Eu].
  - exists h'. unfold hive_decrypt in Q. destruct (cgka_of h d) as [c|] eqn:Ec; [|injection Q as <- _; apply (idle_facts _ _ _ _ G E); reflexivity]. destruct (decryption_key_for _ c e) as [c' z] eqn:Eu.
    assert (h' = put_cgka h d c') as -> by (destruct z; injection Q; auto).
    eapply one_facts; [exact G|exact E|exact Ec|apply news_same, (decryption_graph _ _ _ _ _ Eu)].
  - exists h'. destruct x as [o|o|dl|rv].
    + apply (idle_facts _ _ _ _ G E); [|eapply other_events; [|exact Q]; exact I]. cbn [receive_event] in Q. unfold receive_key_event in Q. pose proof (receive_noted (h_keys h) o) as [A _]. destruct (receive_prekey_op _ _). injection Q as <- _. exact A.
    + pose proof (other_records _ _ _ _ _ (ECgka o) _ _ I Q) as [M _]. pose proof (receive_pairs _ _ _ _ _ _ _ _ Q) as Pr.
      split; [exact E|reflexivity|reflexivity|exact M|rewrite Pr; auto|]. intros d y1 p id pk j ps qs K Ud So. exfalso.
      cbn [receive_event] in Q. unfold receive_cgka in Q.
      assert (Old : known_ops h d !! y1 = Some p -> False) by (intros X; pose proof (lookup_weaken _ _ _ _ X (known_made ho ro HH HR t r h d G E)); congruence).
      destruct (do_ok o) eqn:Ok1; cbn [negb] in Q; [|injection Q as <- _; exact (Old K)]. destruct (h_docs h !! do_doc o); [|injection Q as <- _; exact (Old K)].
      pose proof (doc_receive_known (ho r) (ro r) (h_keys h) (h_cg h) o d y1 p) as Dk. destruct (doc_receive _ _ _ _ _) as [z ok]. injection Q as <- _. cbn [fst] in Dk.
      destruct (Dk K) as [X|(-> & -> & ->)]; [exact (Old X)|]. destruct (Ge Ok1) as [Op _]. congruence.
    + apply (idle_facts _ _ _ _ G E); [apply (other_records _ _ _ _ _ (EDlg dl) _ _ I Q)|eapply other_events; [|exact Q]; exact I].
    + apply (idle_facts _ _ _ _ G E); [apply (other_records _ _ _ _ _ (ERev rv) _ _ I Q)|eapply other_events; [|exact Q]; exact I].
  - exists h'. unfold make_prekey in Q. destruct (ks_indies _ !! _) as [y|]; [|discriminate]. destruct (make _ _) as [a p]. injection Q as <- _.
    apply went_facts; [exact G|exact E|reflexivity| |intros d; left; reflexivity]. intros k Hk. cbn [put_cg h_cg cs_pairs]. destruct (decide (k = pub sk)) as [-> |Nk]; [rewrite lookup_insert; eauto|rewrite lookup_insert_ne by congruence; exact Hk].
  - eexists. apply (idle_facts _ _ _ _ G E); [|reflexivity]. exact (proj1 (card_noted (h_keys h) o)).
  - eexists. apply (idle_facts _ _ _ _ G E); reflexivity.
  - eexists. apply went_facts; [exact G|exact E|reflexivity| |intros d; left; reflexivity]. intros k Hk. cbn [put_cg h_cg cs_pairs]. apply lookup_union_is_Some. auto.
Qed.

(** ** The invariant *)
Record inv (t : team) : Prop := Inv {
  iv_owned : forall r h r' g o, tm_clients t !! r = Some h -> tm_clients t !! r' = Some g -> o ∈ keyops_of h (me g) -> is_Some (cs_pairs (h_cg g) !! new_key o);
  iv_told : forall r h i k, tm_clients t !! r = Some h -> k ∈ prekeys_of h i -> exists o, o ∈ keyops_of h i /\ new_key o = k;
  iv_named : forall r h, tm_clients t !! r = Some h -> named (h_keys h);
  iv_opens : forall d x o r h, tm_ops t d !! x = Some o -> tm_clients t !! r = Some h -> opens h o
}.
Lemma inv_prekeys t r h r' g k : inv t -> tm_clients t !! r = Some h -> tm_clients t !! r' = Some g -> k ∈ prekeys_of h (me g) -> is_Some (cs_pairs (h_cg g) !! k).
Proof. intros [O T _ _] E E' K. destruct (T _ _ _ _ E K) as (o & Ho & <-). exact (O _ _ _ _ _ E E' Ho). Qed.
Definition later (h h' : client) : Prop := me h' = me h /\ forall k, is_Some (cs_pairs (h_cg h) !! k) -> is_Some (cs_pairs (h_cg h') !! k).
Lemma later_refl h : later h h.
Proof. split; auto. Qed.
Lemma inv_on t t' r h h' : inv t -> tm_clients t !! r = Some h -> tm_clients t' = <[r := h']> (tm_clients t) -> later h h' ->
  (forall i o, o ∈ keyops_of h' i -> o ∈ keyops_of h i \/ (forall r2 g, tm_clients t !! r2 = Some g -> me g = i -> o ∈ keyops_of g i) \/
     (i = me h /\ alone t r h /\ is_Some (cs_pairs (h_cg h') !! new_key o))) ->
  (forall i k, k ∈ prekeys_of h' i -> exists o, o ∈ keyops_of h' i /\ new_key o = k) -> named (h_keys h') ->
  (forall d x o, tm_ops t' d !! x = Some o -> tm_ops t d !! x = Some o \/
     forall id pk i ps qs, so_op o = CAdd id pk i ps qs -> forall r2 g, tm_clients t !! r2 = Some g -> me g = id -> is_Some (cs_pairs (h_cg g) !! pk)) -> inv t'.
Proof.
  intros V E C L Rec Told Nm Ops.
  assert (Back : forall r1 g', tm_clients t' !! r1 = Some g' -> exists g, tm_clients t !! r1 = Some g /\ later g g' /\ (r1 = r -> g = h /\ g' = h') /\ (r1 <> r -> g' = g)).
  { intros r1 g'. rewrite C. intros X. apply lookup_insert_Some in X as [[<- <-]|[N X]]; [exists h|exists g']; (split; [assumption|]); (split; [auto using later_refl|]); split; auto; congruence. }
  split.
  - intros r1 g1' r2 g2' o E1 E2 Ho. destruct (Back _ _ E1) as (g1 & F1 & L1 & A1 & B1). destruct (Back _ _ E2) as (g2 & F2 & L2 & A2 & B2). rewrite (proj1 L2) in Ho.
    assert (Use : o ∈ keyops_of g1 (me g2) -> is_Some (cs_pairs (h_cg g2') !! new_key o)) by (intros X; apply L2, (iv_owned _ V _ _ _ _ _ F1 F2 X)).
    destruct (decide (r1 = r)) as [-> |N]; [|rewrite (B1 N) in Ho; exact (Use Ho)]. destruct (A1 eq_refl) as [-> ->].
    destruct (Rec _ _ Ho) as [X|[X|(Mi & Al & X)]]; [exact (Use X)| |].
    + apply L2, (iv_owned _ V _ _ _ _ _ F2 F2). exact (X _ _ F2 eq_refl).
    + pose proof (Al _ _ F2 Mi) as ->. destruct (A2 eq_refl) as [_ ->]. exact X.
  - intros r1 g' i k E1 K. destruct (Back _ _ E1) as (g & F & _ & A & B). destruct (decide (r1 = r)) as [-> |N].
    + destruct (A eq_refl) as [_ ->]. exact (Told _ _ K).
    + rewrite (B N) in *. exact (iv_told _ V _ _ _ _ F K).
  - intros r1 g' E1. destruct (Back _ _ E1) as (g & F & _ & A & B). destruct (decide (r1 = r)) as [-> |N]; [destruct (A eq_refl) as [_ ->]; exact Nm|rewrite (B N); exact (iv_named _ V _ _ F)].
  - intros d x o r1 g' Eo E1 id pk i ps qs So Me. destruct (Back _ _ E1) as (g & F & L1 & _ & _). rewrite (proj1 L1) in Me. apply L1.
    destruct (Ops _ _ _ Eo) as [X|X]; [exact (iv_opens _ V _ _ _ _ _ X F _ _ _ _ _ So Me)|exact (X _ _ _ _ _ So _ _ F (eq_sym Me))].
Qed.
Lemma told_noted (h h' : client) o : noted o (h_keys h) (h_keys h') -> (forall i k, k ∈ prekeys_of h i -> exists p, p ∈ keyops_of h i /\ new_key p = k) ->
  forall i k, k ∈ prekeys_of h' i -> exists p, p ∈ keyops_of h' i /\ new_key p = k.
Proof.
  intros [_ N] T i k. unfold prekeys_of, keyops_of in *. destruct (ks_indies (h_keys h') !! i) as [x'|] eqn:E; [|intros X; apply elem_of_empty in X; contradiction].
  destruct (N _ _ E) as [X|(_ & B & _)].
  - specialize (T i k). rewrite X in T. exact T.
  - intros K. rewrite B in K. apply build_spec in K as [(p & Hp & Hk) _]. eauto.
Qed.
Lemma record_noted (h h' : client) o i p : noted o (h_keys h) (h_keys h') -> p ∈ keyops_of h' i -> p ∈ keyops_of h i \/ (p = o /\ i = ko_issuer o).
Proof.
  intros [_ N]. unfold keyops_of. destruct (ks_indies (h_keys h') !! i) as [x'|] eqn:E; [|intros X; apply elem_of_empty in X; contradiction].
  destruct (N _ _ E) as [X|(Ei & _ & B)]; [rewrite X; auto|]. intros Hp. destruct (B _ Hp) as [->|(x & Ex & Hx)]; [auto|]. left. rewrite Ex. exact Hx.
Qed.
Lemma less_record (h h' : client) : ks_indies (h_keys h') ⊆ ks_indies (h_keys h) ->
  (forall i p, p ∈ keyops_of h' i -> p ∈ keyops_of h i) /\
  ((forall i k, k ∈ prekeys_of h i -> exists p, p ∈ keyops_of h i /\ new_key p = k) -> forall i k, k ∈ prekeys_of h' i -> exists p, p ∈ keyops_of h' i /\ new_key p = k).
Proof.
  intros Su. split.
  - intros i p. unfold keyops_of. destruct (ks_indies (h_keys h') !! i) as [x'|] eqn:E; [|intros X; apply elem_of_empty in X; contradiction]. rewrite (lookup_weaken _ _ _ _ E Su). auto.
  - intros T i k. specialize (T i k). unfold keyops_of, prekeys_of in *. destruct (ks_indies (h_keys h') !! i) as [x'|] eqn:E; [|intros X; apply elem_of_empty in X; contradiction]. rewrite (lookup_weaken _ _ _ _ E Su) in T. exact T.
Qed.
(** A client that makes a prekey. *)
Lemma make_record h make sk h' o : make_prekey h make sk = Some (h', o) -> make = active_expand \/ (exists old, make = fun a k => active_rotate a old k) ->
  (forall i k, k ∈ prekeys_of h i -> exists p, p ∈ keyops_of h i /\ new_key p = k) ->
  later h h' /\ cs_docs (h_cg h') = cs_docs (h_cg h) /\
  (forall i p, p ∈ keyops_of h' i -> p ∈ keyops_of h i \/ (i = me h /\ p = o /\ is_Some (cs_pairs (h_cg h') !! new_key p))) /\ o ∈ keyops_of h' (me h) /\
  (forall i k, k ∈ prekeys_of h' i -> exists p, p ∈ keyops_of h' i /\ new_key p = k) /\
  (named (h_keys h) -> named (h_keys h') /\ ko_issuer o = me h) /\ new_key o = pub sk /\ cs_pairs (h_cg h') !! pub sk = Some sk.
Proof.
  intros Q Mk T. unfold make_prekey in Q. destruct (ks_indies (h_keys h) !! me h) as [x|] eqn:E; [|discriminate]. destruct (make (Active _ x) (pub sk)) as [a p] eqn:Qm. apply (inj Some) in Q.
  assert (Sh : (new_key p = pub sk /\ ko_issuer p = in_id x /\ in_id (ac_ind a) = in_id x) /\ in_ops (ac_ind a) = {[ p ]} ∪ in_ops x /\ forall k, k ∈ in_prekeys (ac_ind a) -> k = pub sk \/ k ∈ in_prekeys x).
  { destruct Mk as [->|[old ->]]; [unfold active_expand in Qm|unfold active_rotate in Qm]; cbn [ac_ind] in Qm; injection Qm as <- <-; cbn [ac_ind in_ops in_prekeys in_id new_key ko_pay ko_issuer sign]; (split; [repeat split|]); (split; [reflexivity|]); intros k K; apply elem_of_union in K as [K|K]; [left; apply elem_of_singleton in K; exact K|auto|left; apply elem_of_singleton in K; exact K|right; apply elem_of_difference in K; apply K]. }
  clear Qm Mk. destruct Sh as ((Nk & Is & Id) & Io & Ip). injection Q as <- <-.
  assert (Look : forall i, ks_indies (h_keys (put_cg (put_keys h (set_indie (h_keys h) (me h) (ac_ind a))) (Cgs (<[pub sk := sk]> (cs_pairs (h_cg h))) (cs_docs (h_cg h))))) !! i = if decide (i = me h) then Some (ac_ind a) else ks_indies (h_keys h) !! i).
  { intros i. cbn. case_decide as D; [subst i; apply lookup_insert|apply lookup_insert_ne; congruence]. }
  split; [split; [reflexivity|]|split; [reflexivity|split; [|split; [|split; [|split; [|split]]]]]].
  - intros k Hk. cbn [put_cg h_cg cs_pairs]. destruct (decide (k = pub sk)) as [-> |Nn]; [rewrite lookup_insert; eauto|rewrite lookup_insert_ne by congruence; exact Hk].
  - intros i q. unfold keyops_of. rewrite Look. case_decide as D; [subst i|auto]. rewrite Io, E. intros Hq. apply elem_of_union in Hq as [Hq|Hq]; [right|auto].
    apply elem_of_singleton in Hq as ->. split; [reflexivity|]. split; [reflexivity|]. rewrite Nk. cbn [put_cg h_cg cs_pairs]. rewrite lookup_insert. eauto.
  - unfold keyops_of. rewrite Look, decide_True by reflexivity. rewrite Io. apply elem_of_union_l, elem_of_singleton. reflexivity.
  - intros i k. specialize (T i k). unfold prekeys_of, keyops_of in *. rewrite Look. case_decide as D; [subst i|exact T]. rewrite E in T. rewrite Io. intros K. destruct (Ip _ K) as [->|X].
    + exists p. split; [apply elem_of_union_l, elem_of_singleton; reflexivity|exact Nk].
    + destruct (T X) as (q & Hq & Ek). exists q. split; [apply elem_of_union_r, Hq|exact Ek].
  - intros N. split; [|rewrite Is; exact (N _ _ E)]. apply (named_set (h_keys h)); [exact N|]. rewrite Id. exact (N _ _ E).
  - exact Nk.
  - apply lookup_insert.
Qed.
Lemma no_new t r h h' : team_good ho ro t -> tm_clients t !! r = Some h -> cs_docs (h_cg h') = cs_docs (h_cg h) -> forall d x o, tm_ops (went t r h') d !! x = Some o -> tm_ops t d !! x = Some o.
Proof.
  intros G E C d x o K. cbn in K. assert (Eq : known_ops h' d = known_ops h d) by (unfold known_ops, cgka_of; rewrite C; reflexivity).
  rewrite Eq, (union_absorb _ _ (known_made ho ro HH HR t r h d G E)) in K. exact K.
Qed.
Notation careful := (careful_step order ho ro pick doc_content).
Lemma careful_is t t' : careful t t' -> team_step order ho ro pick doc_content t t'.
Proof. intros [r h x h' y E G A Q|r h o E A|r h sk h' o E A Q|r h old sk h' o E A Q|r h h' t2 E S _ _ _]; [eapply ts_receive|eapply ts_card|eapply ts_prekey|eapply ts_prekey|]; eauto. Qed.
Lemma receive_nothing_new t r h x h' y : team_good ho ro t -> tm_clients t !! r = Some h -> genuine t h x ->
  receive_event (order r) doc_content do_doc do_ok (doc_receive (ho r) (ro r)) h x = (h', y) -> forall d y1 p, tm_ops (went t r h') d !! y1 = Some p -> tm_ops t d !! y1 = Some p.
Proof.
  intros G E Ge Q. destruct x as [o|o|dl|rv].
  2: { intros d y1 p K. cbn in K. apply lookup_union_Some_raw in K as [K|[U K]]; [exact K|]. cbn [receive_event] in Q. unfold receive_cgka in Q.
    assert (Old : known_ops h d !! y1 = Some p -> tm_ops t d !! y1 = Some p) by (intros X; exact (lookup_weaken _ _ _ _ X (known_made ho ro HH HR t r h d G E))).
    destruct (do_ok o) eqn:Ok1; cbn [negb] in Q; [|injection Q as <- _; exact (Old K)]. destruct (h_docs h !! do_doc o); [|injection Q as <- _; exact (Old K)].
    pose proof (doc_receive_known (ho r) (ro r) (h_keys h) (h_cg h) o d y1 p) as Dk. destruct (doc_receive _ _ _ _ _) as [z ok]. injection Q as <- _. cbn [fst] in Dk.
    destruct (Dk K) as [X|(-> & -> & ->)]; [exact (Old X)|]. destruct (Ge Ok1) as [Op _]. exact Op. }
  all: eapply no_new; [exact G|exact E|]; f_equal; eapply other_events; [|exact Q]; exact I.
Qed.
Lemma inv_step t t' : picks pick -> team_good ho ro t -> inv t -> careful t t' -> inv t'.
Proof.
  intros Pk G V [r h x h' y E Ge A Q|r h o E A|r h sk h' o E A Q|r h old sk h' o E A Q|r h h' t2 E S C I Kn].
  - pose proof (receive_pairs _ _ _ _ _ _ _ _ Q) as Pr. pose proof (fun i k => iv_told _ V _ _ i k E) as T.
    assert (Rec : me h' = me h /\ (forall i p, p ∈ keyops_of h' i -> p ∈ keyops_of h i \/ (forall r2 g, tm_clients t !! r2 = Some g -> me g = i -> p ∈ keyops_of g i)) /\
      (forall i k, k ∈ prekeys_of h' i -> exists o, o ∈ keyops_of h' i /\ new_key o = k) /\ named (h_keys h')).
    { pose proof (iv_named _ V _ _ E) as Nm. destruct x as [o|o|d|rv].
      2-4: apply other_records in Q; [|exact I]; destruct Q as [M Su]; destruct (less_record _ _ Su) as [B1 B2]; (split; [exact M|]); (split; [intros i p Hp; left; exact (B1 _ _ Hp)|]); (split; [apply B2; intros i k; exact (T i k)|]); intros i x L; exact (Nm _ _ (lookup_weaken _ _ _ _ L Su)).
      cbn [receive_event] in Q. unfold receive_key_event in Q. pose proof (receive_noted (h_keys h) o) as N. pose proof (receive_named (h_keys h) o Nm) as Nm'. destruct (receive_prekey_op _ _) as [ks e]. cbn [fst] in N, Nm'. injection Q as <- _.
      split; [exact (proj1 N)|]. split; [|split; [|exact Nm']].
      - intros i p Hp. destruct (record_noted h (put_keys h ks) o i p N Hp) as [X|[-> ->]]; [auto|]. right. intros r2 g Eg Mg. pose proof (A _ eq_refl _ _ Eg Mg) as X. rewrite Mg in X. exact X.
      - apply (told_noted h (put_keys h ks) o N). intros i k. exact (T i k). }
    destruct Rec as (M & R1 & R2 & R3). apply (inv_on t (went t r h') r h h' V E eq_refl); [split; [exact M|rewrite Pr; auto]|intros i p Hp; destruct (R1 _ _ Hp); auto|exact R2|exact R3|].
    intros d z p Hp. left. eapply receive_nothing_new; eauto.
  - pose proof (card_noted (h_keys h) o) as N. set (h' := put_keys h (receive_contact_card (h_keys h) o).1). change (noted o (h_keys h) (h_keys h')) in N.
    apply (inv_on t (went t r h') r h h' V E eq_refl); [split; [exact (proj1 N)|auto]| | |exact (card_named _ _ (iv_named _ V _ _ E))|].
    + intros i p Hp. destruct (record_noted _ _ _ _ _ N Hp) as [X|[-> ->]]; [auto|]. right. left. intros r2 g Eg Mg. pose proof (A _ _ Eg Mg) as X. rewrite Mg in X. exact X.
    + apply (told_noted _ _ _ N). intros i k. exact (iv_told _ V _ _ i k E).
    + intros d z p Hp. left. eapply no_new; [exact G|exact E|reflexivity|exact Hp].
  - destruct (make_record h active_expand sk h' o Q (or_introl eq_refl) (fun i k => iv_told _ V _ _ i k E)) as (L & Cd & R1 & _ & R2 & R3 & _).
    apply (inv_on t (went t r h') r h h' V E eq_refl L); [|exact R2|exact (proj1 (R3 (iv_named _ V _ _ E)))|].
    + intros i p Hp. destruct (R1 _ _ Hp) as [X|(Ei & _ & X)]; auto.
    + intros d z p Hp. left. eapply no_new; eauto.
  - destruct (make_record h _ sk h' o Q (or_intror (ex_intro _ old eq_refl)) (fun i k => iv_told _ V _ _ i k E)) as (L & Cd & R1 & _ & R2 & R3 & _).
    apply (inv_on t (went t r h') r h h' V E eq_refl L); [|exact R2|exact (proj1 (R3 (iv_named _ V _ _ E)))|].
    + intros i p Hp. destruct (R1 _ _ Hp) as [X|(Ei & _ & X)]; auto.
    + intros d z p Hp. left. eapply no_new; eauto.
  - destruct (step_facts _ _ G S) as (r0 & h0 & h0' & F). destruct F as [E0 C0 O0 M0 P0 N0].
    assert (Same : r0 <> r -> h0' = h0). { intros N. assert (X : tm_clients t2 !! r0 = Some h0') by (rewrite C0; apply lookup_insert). rewrite C, lookup_insert_ne, E0 in X by congruence. congruence. }
    assert (Er : r0 = r -> h0 = h /\ h0' = h'). { intros ->. split; [congruence|]. assert (X : tm_clients t2 !! r = Some h0') by (rewrite C0; apply lookup_insert). rewrite C, lookup_insert in X. congruence. }
    assert (L : later h h'). { destruct (decide (r0 = r)) as [e|N]; [destruct (Er e) as [-> ->]; split; assumption|]. assert (X : tm_clients t2 !! r = Some h) by (rewrite C0, lookup_insert_ne by exact N; exact E). rewrite C, lookup_insert in X. apply (inj Some) in X as ->. apply later_refl. }
    destruct (less_record h h') as [B1 B2]; [rewrite I; reflexivity|].
    apply (inv_on t t2 r h h' V E C L); [intros i p Hp; left; exact (B1 _ _ Hp)|apply B2; intros i k; exact (iv_told _ V _ _ i k E)|unfold named; rewrite I; exact (iv_named _ V _ _ E)|].
    intros d x o Ho. destruct (tm_ops t d !! x) as [p|] eqn:Ex; [left; rewrite O0 in Ho; rewrite (lookup_union_Some_l _ _ _ _ Ex) in Ho; congruence|]. right. intros id pk i ps qs So r2 g Eg Mg.
    destruct (Kn d x o id pk i ps qs r2 g Ex Ho So Eg Mg) as [Nd Ne]. rewrite O0, (lookup_union_r _ _ _ Ex) in Ho.
    destruct (decide (r0 = r)) as [e|N].
    + destruct (Er e) as [-> ->]. destruct (N0 _ _ _ _ _ _ _ _ Ho Ex So) as [X|X]; [contradiction|]. subst r0 pk. subst id. exact (inv_prekeys t r h r2 g _ V E Eg (Pk r h (me g) d Ne)).
    + exfalso. rewrite (Same N) in Ho. pose proof (lookup_weaken _ _ _ _ Ho (known_made ho ro HH HR t r0 h0 d G E0)). congruence.
Qed.
Lemma careful_inv t : picks pick -> careful_reachable order ho ro pick doc_content t -> team_reachable order ho ro pick doc_content t /\ inv t.
Proof.
  intros Pk. induction 1 as [t R Z O T N|t t' _ [R V] S].
  - split; [exact R|]. split; [exact O|exact T|exact N|]. intros d x o r h X. rewrite Z, lookup_empty in X. discriminate.
  - split; [eapply tr_step; [exact R|apply careful_is, S]|]. eapply inv_step; [exact Pk|exact (team_reachable_good order ho ro pick doc_content HO HH HR t R)|exact V|exact S].
Qed.
End team.
