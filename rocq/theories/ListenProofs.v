(** Proofs about what the listener of a client hears. *)
From Coq Require Import Arith Lia.
From stdpp Require Import base list gmap relations.
From Verif Require Import ResModel KeysModel TreeModel OpsModel CgkaModel CgkaSpec CgkaProofs NetProofs.
From Verif Require Import AccessModel GroupModel GroupSpec GroupPropsProofs PrekeyModel HiveModel HiveSpec HiveProofs SyncModel ArchiveModel ArchiveSpec.
From Verif Require Import DocModel DocSpec DocProofs TransactModel TransactSpec TransactLocal TransactCommit ListenSpec.

(** ** Keys *)

Definition graphs (h : client) : gmap ident graph := c_graph <$> cs_docs (h_cg h).
Definition gat (G : gmap ident graph) (j : ident) : graph := default graph_new (G !! j).
Definition kadd (G : gmap ident graph) (o : dop) : gmap ident graph := <[do_doc o := add_local_op (gat G (do_doc o)) (do_op o)]> G.
Fixpoint fits (g : graph) (ops : list signed_op) : Prop :=
  match ops with [] => True | o :: ops => (forall p, p ∈ op_preds (so_op o) -> p ∈ g_heads g) /\ fits (add_local_op g o) ops end.
Fixpoint kfits (G : gmap ident graph) (l : list dop) : Prop :=
  match l with [] => True | o :: l => (forall p, p ∈ op_preds (so_op (do_op o)) -> p ∈ g_heads (gat G (do_doc o))) /\ kfits (kadd G o) l end.
Definition hashes (j : ident) (l : list dop) : list digest := map (fun o => so_hash (do_op o)) (filter (fun o => do_doc o = j) l).

Lemma graphs_put h j c : graphs (put_cgka h j c) = <[j := c_graph c]> (graphs h).
Proof. unfold graphs, put_cgka. cbn. apply fmap_insert. Qed.
Lemma graphs_at h j c : cgka_of h j = Some c -> graphs h !! j = Some (c_graph c).
Proof. intros E. unfold graphs. rewrite lookup_fmap. unfold cgka_of in E. rewrite E. reflexivity. Qed.
Lemma key_op_graph h j o : has_key_op h j o <-> exists g, graphs h !! j = Some g /\ g_ops g !! so_hash o = Some o.
Proof.
  unfold has_key_op, graphs, cgka_of. rewrite lookup_fmap. split.
  - intros (c & -> & A). exists (c_graph c). auto.
  - destruct (cs_docs (h_cg h) !! j) as [c|]; intros (g & E & A); [|discriminate]. injection E as <-. exists c. auto.
Qed.
Lemma fits_app a : forall g b, fits g (a ++ b) <-> fits g a /\ fits (foldl add_local_op g a) b.
Proof. induction a as [|o a IH]; intros g b; cbn; [tauto|]. rewrite IH. tauto. Qed.
Lemma kfits_app a : forall G b, kfits G (a ++ b) <-> kfits G a /\ kfits (foldl kadd G a) b.
Proof. induction a as [|o a IH]; intros G b; cbn; [tauto|]. rewrite IH. tauto. Qed.
Lemma hashes_app j a b : hashes j (a ++ b) = hashes j a ++ hashes j b.
Proof. unfold hashes. rewrite filter_app, map_app. reflexivity. Qed.
Lemma hashes_none j l : (forall o, o ∈ l -> do_doc o <> j) -> hashes j l = [].
Proof.
  unfold hashes. induction l as [|o l IH]; intros H; [reflexivity|]. rewrite filter_cons_False by (apply H; left). apply IH. intros q Hq. apply H. right. exact Hq.
Qed.
Lemma lift_keys j who ops : forall G g, G !! j = Some g -> fits g ops ->
  kfits G (map (DOp j who true) ops) /\ foldl kadd G (map (DOp j who true) ops) = <[j := foldl add_local_op g ops]> G.
Proof.
  induction ops as [|o ops IH]; intros G g E F; cbn [map kfits foldl fits do_doc do_op] in *.
  - split; [exact I|]. symmetry. apply insert_id, E.
  - destruct F as [F1 F2]. assert (Eg : gat G j = g) by (unfold gat; rewrite E; reflexivity). assert (Ek : kadd G (DOp j who true o) = <[j := add_local_op g o]> G) by (unfold kadd; cbn; rewrite Eg; reflexivity).
    rewrite Ek, Eg.
    destruct (IH (<[j := add_local_op g o]> G) (add_local_op g o)) as [A B]; [apply lookup_insert|exact F2|]. split; [split; [exact F1|exact A]|].
    rewrite B. apply insert_insert.
Qed.
Lemma lift_hashes j who i ops : hashes j (map (DOp i who true) ops) = if i =? j then map so_hash ops else [].
Proof.
  unfold hashes. destruct (i =? j) eqn:E; [apply Nat.eqb_eq in E as ->|apply Nat.eqb_neq in E].
  - induction ops as [|o ops IH]; [reflexivity|]. cbn [map]. rewrite filter_cons_True by reflexivity. cbn [map]. rewrite IH. reflexivity.
  - induction ops as [|o ops IH]; [reflexivity|]. cbn [map]. rewrite filter_cons_False by exact E. exact IH.
Qed.

Definition gsound (G : gmap ident graph) : Prop := forall j g, G !! j = Some g ->
  (forall x o, g_ops g !! x = Some o -> so_hash o = x) /\ (forall x, x ∈ g_heads g -> is_Some (g_ops g !! x)).
Lemma gat_sound G j : gsound G -> (forall x o, g_ops (gat G j) !! x = Some o -> so_hash o = x) /\ (forall x, x ∈ g_heads (gat G j) -> is_Some (g_ops (gat G j) !! x)).
Proof.
  intros S. unfold gat. destruct (G !! j) as [g|] eqn:E; [apply (S j g E)|]. cbn. split; [intros x o; rewrite lookup_empty; discriminate|set_solver].
Qed.
Lemma kadd_sound G o : gsound G -> gsound (kadd G o).
Proof.
  intros S j g. unfold kadd. destruct (decide (do_doc o = j)) as [<-|N]; [rewrite lookup_insert; intros Q; injection Q as <-|rewrite lookup_insert_ne by exact N; apply S].
  destruct (gat_sound G (do_doc o) S) as [A B]. cbn. split.
  - intros x q. destruct (decide (so_hash (do_op o) = x)) as [<-|N]; [rewrite lookup_insert; intros Q; injection Q as <-; reflexivity|rewrite lookup_insert_ne by exact N; apply A].
  - intros x Hx. apply elem_of_union in Hx as [Hx|Hx]; [set_solver|]. apply elem_of_singleton in Hx as ->. rewrite lookup_insert. eauto.
Qed.
Lemma kadds_sound l : forall G, gsound G -> gsound (foldl kadd G l).
Proof. induction l as [|o l IH]; intros G S; [exact S|]. cbn. apply IH, kadd_sound, S. Qed.
(** Where the operations of a key come from. *)
Lemma kadds_back l : forall G j x o, g_ops (gat (foldl kadd G l) j) !! x = Some o -> g_ops (gat G j) !! x = Some o \/ exists y, y ∈ l /\ do_doc y = j /\ do_op y = o /\ so_hash o = x.
Proof.
  induction l as [|y l IH]; intros G j x o E; [auto|]. cbn in E. apply IH in E as [E|(z & Hz & A)]; [|right; exists z; split; [right; exact Hz|exact A]].
  unfold gat, kadd in E. destruct (decide (do_doc y = j)) as [<-|N]; [rewrite lookup_insert in E|rewrite lookup_insert_ne in E by exact N; left; exact E].
  cbn in E. destruct (decide (so_hash (do_op y) = x)) as [<-|N]; [rewrite lookup_insert in E; injection E as <-; right; exists y; repeat split; left|rewrite lookup_insert_ne in E by exact N; left; exact E].
Qed.
Lemma kadds_dom l : forall G j, is_Some (foldl kadd G l !! j) -> is_Some (G !! j) \/ exists o, o ∈ l /\ do_doc o = j.
Proof.
  induction l as [|o l IH]; intros G j H; [auto|]. cbn in H. apply IH in H as [H|(y & Hy & E)]; [|right; exists y; split; [right; exact Hy|exact E]].
  unfold kadd in H. destruct (decide (do_doc o = j)) as [E|N]; [right; exists o; split; [left|exact E]|rewrite lookup_insert_ne in H by exact N; auto].
Qed.
Definition unused_hashes (G : gmap ident graph) (l : list dop) : Prop := forall j, NoDup (hashes j l) /\ forall x, x ∈ hashes j l -> g_ops (gat G j) !! x = None.
Lemma unused_cons G o l : unused_hashes G (o :: l) -> g_ops (gat G (do_doc o)) !! so_hash (do_op o) = None /\ unused_hashes (kadd G o) l.
Proof.
  intros U. split.
  - destruct (U (do_doc o)) as [_ A]. apply A. unfold hashes. rewrite filter_cons_True by reflexivity. left.
  - intros j. destruct (U j) as [A B]. unfold hashes in A, B. destruct (decide (do_doc o = j)) as [E|N].
    + rewrite filter_cons_True in A, B by exact E. cbn [map] in A, B. apply NoDup_cons in A as [A1 A2]. split; [exact A2|]. intros x Hx.
      unfold gat, kadd. rewrite E, lookup_insert. cbn. rewrite lookup_insert_ne; [apply B; right; exact Hx|]. intros Q. apply A1. rewrite Q. exact Hx.
    + rewrite filter_cons_False in A, B by exact N. split; [exact A|]. intros x Hx. unfold gat, kadd. rewrite lookup_insert_ne by exact N. apply B, Hx.
Qed.
Lemma kadds_keep l : forall G j x o, unused_hashes G l -> g_ops (gat G j) !! x = Some o -> g_ops (gat (foldl kadd G l) j) !! x = Some o.
Proof.
  induction l as [|y l IH]; intros G j x o U E; [exact E|]. cbn. destruct (unused_cons _ _ _ U) as [N U']. apply IH; [exact U'|].
  unfold gat, kadd. destruct (decide (do_doc y = j)) as [Ej|Nj]; [rewrite <- Ej, lookup_insert|rewrite lookup_insert_ne by exact Nj; exact E]. cbn.
  rewrite lookup_insert_ne; [rewrite Ej; exact E|]. intros Q. rewrite Q, Ej in N. congruence.
Qed.
Lemma kadds_have l : forall G o, unused_hashes G l -> o ∈ l -> g_ops (gat (foldl kadd G l) (do_doc o)) !! so_hash (do_op o) = Some (do_op o).
Proof.
  induction l as [|y l IH]; intros G o U H; [inversion H|]. destruct (unused_cons _ _ _ U) as [N U']. cbn. apply elem_of_cons in H as [<-|H]; [|apply IH; assumption].
  apply kadds_keep; [exact U'|]. unfold gat, kadd. rewrite lookup_insert. cbn. apply lookup_insert.
Qed.
Lemma gat_op h j o : has_key_op h j o <-> g_ops (gat (graphs h) j) !! so_hash o = Some o.
Proof.
  rewrite key_op_graph. unfold gat. destruct (graphs h !! j) as [g|]; cbn; split.
  - intros (g' & E & A). injection E as <-. exact A.
  - eauto.
  - intros (g' & E & _). discriminate.
  - rewrite lookup_empty. discriminate.
Qed.
Lemma kadds_order l1 o l2 G : gsound G -> kfits G (l1 ++ o :: l2) -> forall p, p ∈ op_preds (so_op (do_op o)) ->
  (exists q, g_ops (gat G (do_doc o)) !! so_hash q = Some q /\ so_hash q = p) \/ exists y, y ∈ l1 /\ do_doc y = do_doc o /\ so_hash (do_op y) = p.
Proof.
  intros S F p Hp. apply kfits_app in F as [_ [F _]]. specialize (F p Hp). pose proof (kadds_sound l1 G S) as S1. destruct (gat_sound _ (do_doc o) S1) as [A B].
  destruct (B p F) as [q E]. pose proof (A p q E) as Eq. destruct (kadds_back _ _ _ _ _ E) as [Q|(y & Hy & D & Oy & _)].
  - left. exists q. rewrite Eq. auto.
  - right. exists y. rewrite Oy. auto.
Qed.

(** ** What the calls do to keys *)

Section calls.
Context (order : gset nat -> list nat) (Hord : some_order order) (horder : gset digest -> list digest) (Hh : some_order horder).
Context (rorder : gset (member_id * nat) -> list (member_id * nat)).
Context (pick : ident -> ident -> share_key) (doc_content : nat -> ident -> bool).
Notation run_call := (run_call order horder rorder pick doc_content).
Notation run_calls := (run_calls order horder rorder pick doc_content).

Lemma heads_in (s : gset digest) p : p ∈ (list_to_set (horder s) : gset digest) -> p ∈ s.
Proof. intros H. apply elem_of_list_to_set in H. rewrite (Hh s) in H. apply elem_of_elements, H. Qed.
(** The operations [ops] were made, one after the other, with digests out of [hs]. *)
Definition made_ops (c : cgka) (ops : list signed_op) (hs : list digest) (c' : cgka) : Prop :=
  c_graph c' = foldl add_local_op (c_graph c) ops /\ fits (c_graph c) ops /\ sublist (map so_hash ops) hs.
Lemma made_app c ops hs c1 ops1 hs1 c2 : made_ops c ops hs c1 -> made_ops c1 ops1 hs1 c2 -> made_ops c (ops ++ ops1) (hs ++ hs1) c2.
Proof.
  intros (A & B & C) (A1 & B1 & C1). split; [rewrite foldl_app, <- A; exact A1|]. split; [apply fits_app; rewrite <- A; auto|]. rewrite map_app. apply sublist_app; assumption.
Qed.
Lemma made_one c op x c' : so_hash op = x -> op_preds (so_op op) = list_to_set (horder (g_heads (c_graph c))) -> c_graph c' = add_local_op (c_graph c) op -> made_ops c [op] [x] c'.
Proof. intros <- P G. split; [exact G|]. split; [|reflexivity]. cbn. split; [|exact I]. intros p. rewrite P. apply heads_in. Qed.
Lemma made_none c c' hs : c_graph c' = c_graph c -> made_ops c [] hs c'.
Proof. intros G. split; [exact G|]. split; [exact I|apply sublist_nil_l]. Qed.
Lemma cgka_add_made c i pk x c' o : cgka_add horder rorder c i pk x = (c', Ok o) -> made_ops c (option_list o) [x] c'.
Proof.
  unfold cgka_add. destruct (contains_id _ _); [intros Q; injection Q as <- <-; apply made_none; reflexivity|].
  destruct (maybe_replay horder rorder c) as [c1|e| |] eqn:Em; intros Q; try discriminate. apply maybe_replay_graph in Em as (G & _).
  destruct (push_leaf _ _ _) as [[t n]|e| |]; try discriminate. injection Q as <- <-. cbn [option_list]. apply made_one; cbn; rewrite ?G; reflexivity.
Qed.
Lemma cgka_remove_made c i x c' r : cgka_remove horder rorder c i x = (c', r) -> made_ops c (match r with Ok o => option_list o | _ => [] end) [x] c'.
Proof.
  unfold cgka_remove. destruct (negb _); [intros Q; injection Q as <- <-; apply made_none; reflexivity|].
  destruct (maybe_replay horder rorder c) as [c1|e| |] eqn:Em; intros Q; [|injection Q as <- <-; apply made_none; reflexivity..]. apply maybe_replay_graph in Em as (G & _).
  destruct (_ =? 1); [injection Q as <- <-; apply made_none, G|].
  destruct (remove_id _ _) as [[t [n ks]]|e| |]; injection Q as <- <-; try (apply made_none, G). cbn [option_list]. apply made_one; cbn; rewrite ?G; reflexivity.
Qed.
Lemma cgka_update_made c sk x rng c' k op rest : cgka_update horder rorder c sk x rng = (c', Ok (k, op, rest)) -> made_ops c [op] [x] c'.
Proof.
  unfold cgka_update. destruct (maybe_replay horder rorder c) as [c1|e| |] eqn:Em; intros Q; try discriminate. apply maybe_replay_graph in Em as (G & _).
  destruct (update_identity _ _ _) as [[[id pk] sk']|e| |]; try discriminate. destruct (encrypt_path _ _ _ _ _) as [[[[[t k'] path] sks] rng']|e| |]; try discriminate.
  injection Q as <- <- <- <-. apply made_one; cbn; rewrite ?G; reflexivity.
Qed.
Lemma app_secret_made c ref content preds sk x rng c' s o : new_app_secret_for horder rorder c ref content preds sk x rng = (c', Ok (s, o)) -> made_ops c (option_list o) [x] c'.
Proof.
  unfold new_app_secret_for. destruct (has_pcs_key c) as [[]|e| |]; try discriminate.
  - destruct (pcs_key_from_tree_root c) as [c1 r1] eqn:Er. apply root_graph in Er as [sks ->]. destruct r1 as [k|e| |]; try discriminate.
    destruct (c_pcs _ !! _); [|destruct (horder _)]; destruct (c_pcs_ops _ !! _); intros Q; try discriminate; injection Q as <- <- <-; apply made_none; reflexivity.
  - destruct (cgka_update _ _ _ _ _ _) as [c1 r1] eqn:Eu. destruct r1 as [[[k op] rng']|e| |]; try discriminate. apply cgka_update_made in Eu.
    destruct (c_pcs_ops _ !! _); intros Q; try discriminate. injection Q as <- <- <-. exact Eu.
Qed.
Lemma add_keys_made l : forall c hs c' ops, add_keys horder rorder c l hs = (c', Ok ops) -> made_ops c ops hs c'.
Proof.
  induction l as [|[i pk] l IH]; intros c hs c' ops; cbn [add_keys]; [intros Q; injection Q as <- <-; apply made_none; reflexivity|].
  destruct hs as [|x hs]; [discriminate|]. destruct (cgka_add _ _ c i pk x) as [c1 [o|e| |]] eqn:Ea; try discriminate. apply cgka_add_made in Ea.
  destruct (add_keys _ _ c1 l hs) as [c2 [ops'|e| |]] eqn:E; try discriminate. intros Q. injection Q as <- <-. exact (made_app _ _ [x] _ _ _ _ Ea (IH _ _ _ _ E)).
Qed.
Lemma remove_keys_made l : forall c hs c' ops, remove_keys horder rorder c l hs = (c', Ok ops) -> made_ops c ops hs c'.
Proof.
  induction l as [|i l IH]; intros c hs c' ops; cbn [remove_keys]; [intros Q; injection Q as <- <-; apply made_none; reflexivity|].
  destruct hs as [|x hs]; [discriminate|]. destruct (cgka_remove _ _ c i x) as [c1 [o|e| |]] eqn:Ea; try discriminate. apply cgka_remove_made in Ea.
  destruct (remove_keys _ _ c1 l hs) as [c2 [ops'|e| |]] eqn:E; try discriminate. intros Q. injection Q as <- <-. exact (made_app _ _ [x] _ _ _ _ Ea (IH _ _ _ _ E)).
Qed.
Lemma try_remove_keys_made l : forall c hs c' ops, try_remove_keys horder rorder c l hs = (c', Ok ops) -> made_ops c ops hs c'.
Proof.
  induction l as [|i l IH]; intros c hs c' ops; cbn [try_remove_keys]; [intros Q; injection Q as <- <-; apply made_none; reflexivity|].
  destruct hs as [|x hs]; [discriminate|]. destruct (cgka_remove _ _ c i x) as [c1 [o|e| |]] eqn:Ea; try discriminate; apply cgka_remove_made in Ea.
  - destruct (try_remove_keys _ _ c1 l hs) as [c2 [ops'|e| |]] eqn:E; try discriminate. intros Q. injection Q as <- <-. exact (made_app _ _ [x] _ _ _ _ Ea (IH _ _ _ _ E)).
  - intros E. exact (made_app _ [] [x] _ _ _ _ Ea (IH _ _ _ _ E)).
Qed.

(** A client made the operations [l] of keys, each signed by it; [hs] supplies the digests. *)
Definition keyed (new : list ident) (who : ident) (h : client) (l : list dop) (hs : ident -> list digest) (h' : client) : Prop :=
  graphs h' = foldl kadd (graphs h) l /\ kfits (graphs h) l /\ (forall j, sublist (hashes j l) (hs j)) /\ forall o, o ∈ l -> o = DOp (do_doc o) who true (do_op o) /\ (is_Some (graphs h !! do_doc o) \/ do_doc o ∈ new).
Lemma keyed_nil new who h hs h' : graphs h' = graphs h -> keyed new who h [] hs h'.
Proof. intros G. split; [exact G|]. split; [exact I|]. split; [intros j; apply sublist_nil_l|]. intros o H. inversion H. Qed.
Lemma keyed_at new h j c ops hs c' h' : cgka_of h j = Some c -> made_ops c ops (hs j) c' -> graphs h' = <[j := c_graph c']> (graphs h) ->
  keyed new (me h) h (map (signed_by h j) ops) hs h'.
Proof.
  intros E (A & B & C) G. destruct (lift_keys j (me h) ops (graphs h) (c_graph c) (graphs_at _ _ _ E) B) as [F1 F2].
  split; [rewrite G, A; symmetry; exact F2|]. split; [exact F1|]. split.
  - intros i. unfold signed_by. rewrite lift_hashes. destruct (j =? i) eqn:Q; [apply Nat.eqb_eq in Q as <-; exact C|apply sublist_nil_l].
  - intros o Ho. apply elem_of_list_fmap in Ho as (y & -> & _). split; [reflexivity|]. left. cbn. rewrite (graphs_at _ _ _ E). eauto.
Qed.
(** One document after the other. *)
Lemma keyed_docs new who h j c ops hs c' h1 l h' (docs : list ident) : who = me h -> cgka_of h j = Some c -> made_ops c ops (hs j) c' -> h1 = put_cgka h j c' -> j ∉ docs ->
  keyed new who h1 l hs h' -> (forall o, o ∈ l -> do_doc o ∈ docs) -> keyed new who h (map (signed_by h j) ops ++ l) hs h'.
Proof.
  intros -> E M -> Nj (A & B & C & D) Dl. destruct (keyed_at new h j c ops hs c' (put_cgka h j c') E M (graphs_put _ _ _)) as (A1 & B1 & C1 & D1).
  split; [rewrite foldl_app, <- A1; exact A|]. split; [apply kfits_app; rewrite <- A1; auto|]. split.
  - intros i. rewrite hashes_app. destruct (decide (i = j)) as [->|N].
    + assert (Z : hashes j l = []). { apply hashes_none. intros o Ho Q. apply Nj. rewrite <- Q. apply Dl, Ho. }
      rewrite Z, app_nil_r. apply C1.
    + assert (Z : hashes i (map (signed_by h j) ops) = []). { unfold signed_by. rewrite lift_hashes. destruct (j =? i) eqn:Q; [apply Nat.eqb_eq in Q; congruence|reflexivity]. }
      rewrite Z. apply C.
  - intros o Ho. apply elem_of_app in Ho as [Ho|Ho]; [apply D1, Ho|]. destruct (D o Ho) as [Q1 [Q2|Q2]]; (split; [exact Q1|]); [|auto].
    rewrite A1 in Q2. apply kadds_dom in Q2 as [Q2|(y & Hy & <-)]; [auto|apply (D1 y Hy)].
Qed.
Lemma doc_add_keyed new h j l hs h' ops : doc_add_keys horder rorder h j l (hs j) = (h', DOk ops) ->
  keyed new (me h) h ops hs h' /\ (forall o, o ∈ ops -> do_doc o = j) /\ me h' = me h.
Proof.
  unfold doc_add_keys. destruct l as [|x l]; [intros Q; injection Q as <- <-; split; [apply keyed_nil; reflexivity|split; [intros o H; inversion H|reflexivity]]|].
  destruct (cgka_of h j) as [c|] eqn:E; [|discriminate]. destruct (add_keys _ _ c _ _) as [c1 r] eqn:Ea. destruct r as [ops'|e| |]; intros Q; try discriminate. injection Q as <- <-.
  apply add_keys_made in Ea. split; [eapply keyed_at; [exact E|exact Ea|apply graphs_put]|]. split; [|reflexivity]. intros o Ho. apply elem_of_list_fmap in Ho as (y & -> & _). reflexivity.
Qed.
Lemma keyed_app new who h l1 hs h1 l2 h2 (d1 d2 : list ident) : keyed new who h l1 hs h1 -> keyed new who h1 l2 hs h2 -> (forall o, o ∈ l1 -> do_doc o ∈ d1) -> (forall o, o ∈ l2 -> do_doc o ∈ d2) ->
  (forall j, j ∈ d1 -> j ∉ d2) -> keyed new who h (l1 ++ l2) hs h2.
Proof.
  intros (A1 & B1 & C1 & D1) (A & B & C & D) Da Db Dj. split; [rewrite foldl_app, <- A1; exact A|]. split; [apply kfits_app; rewrite <- A1; auto|]. split.
  - intros i. rewrite hashes_app. destruct (decide (i ∈ d1)) as [Hi|Hi].
    + rewrite (hashes_none i l2), app_nil_r; [apply C1|]. intros o Ho Q. apply (Dj i Hi). rewrite <- Q. apply Db, Ho.
    + rewrite (hashes_none i l1); [apply C|]. intros o Ho Q. apply Hi. rewrite <- Q. apply Da, Ho.
  - intros o Ho. apply elem_of_app in Ho as [Ho|Ho]; [apply D1, Ho|]. destruct (D o Ho) as [Q1 [Q2|Q2]]; (split; [exact Q1|]); [|auto].
    rewrite A1 in Q2. apply kadds_dom in Q2 as [Q2|(y & Hy & <-)]; [auto|apply (D1 y Hy)].
Qed.
Lemma add_to_docs_keyed new gid who hs docs : NoDup docs -> forall h h' ops, add_to_docs order horder rorder pick h gid who docs hs = (h', DOk ops) ->
  keyed new (me h) h ops hs h' /\ (forall o, o ∈ ops -> do_doc o ∈ docs) /\ me h' = me h.
Proof.
  induction 1 as [|j docs Nj ND IH]; intros h h' ops; cbn [add_to_docs].
  - intros Q. injection Q as <- <-. split; [apply keyed_nil; reflexivity|]. split; [intros o H; inversion H|reflexivity].
  - assert (Skip : add_to_docs order horder rorder pick h gid who docs hs = (h', DOk ops) -> keyed new (me h) h ops hs h' /\ (forall o, o ∈ ops -> do_doc o ∈ j :: docs) /\ me h' = me h).
    { intros E. destruct (IH _ _ _ E) as (A & B & C). split; [exact A|]. split; [intros o Ho; right; apply B, Ho|exact C]. }
    destruct (h_docs h !! j) as [g|]; [|exact Skip]. destruct (negb _); [exact Skip|]. destruct (pick_prekeys _ _ _ _ _) as [l|]; [|discriminate].
    destruct (doc_add_keys _ _ h j l _) as [h1 [ops1|e]] eqn:Ea; [|discriminate]. destruct (doc_add_keyed new _ _ _ _ _ _ Ea) as (A1 & B1 & C1).
    destruct (add_to_docs _ _ _ _ h1 _ _ _ _) as [h2 [ops2|e]] eqn:E2; [|discriminate]. intros Q. injection Q as <- <-. destruct (IH _ _ _ E2) as (A2 & B2 & C2). rewrite C1 in A2.
    split; [|split; [|congruence]].
    + eapply (keyed_app _ _ _ _ _ _ _ _ [j] docs); [exact A1|exact A2| |exact B2|].
      * intros o Ho. rewrite (B1 o Ho). left.
      * intros i Hi. apply elem_of_list_singleton in Hi as ->. exact Nj.
    + intros o Ho. apply elem_of_app in Ho as [Ho|Ho]; [rewrite (B1 o Ho); left|right; apply B2, Ho].
Qed.
Lemma remove_from_docs_keyed new gid ids hs docs : NoDup docs -> forall h h' ops, remove_from_docs order horder rorder h gid ids docs hs = (h', DOk ops) ->
  keyed new (me h) h ops hs h' /\ (forall o, o ∈ ops -> do_doc o ∈ docs) /\ me h' = me h.
Proof.
  induction 1 as [|j docs Nj ND IH]; intros h h' ops; cbn [remove_from_docs].
  - intros Q. injection Q as <- <-. split; [apply keyed_nil; reflexivity|]. split; [intros o H; inversion H|reflexivity].
  - assert (Skip : remove_from_docs order horder rorder h gid ids docs hs = (h', DOk ops) -> keyed new (me h) h ops hs h' /\ (forall o, o ∈ ops -> do_doc o ∈ j :: docs) /\ me h' = me h).
    { intros E. destruct (IH _ _ _ E) as (A & B & C). split; [exact A|]. split; [intros o Ho; right; apply B, Ho|exact C]. }
    destruct (h_docs h !! j) as [g|]; [|exact Skip]. destruct (caps_of _ _ _) as [caps|]; [|discriminate]. destruct (bool_decide _); [|exact Skip]. cbv zeta.
    destruct (cgka_of h j) as [c|] eqn:Ec; [|exact Skip]. destruct (try_remove_keys _ _ c _ _) as [c1 [ops1|e| |]] eqn:Ea; try discriminate. apply try_remove_keys_made in Ea.
    destruct (remove_from_docs _ _ _ (put_cgka h j c1) _ _ _ _) as [h2 [ops2|e]] eqn:E2; [|discriminate]. intros Q. injection Q as <- <-. destruct (IH _ _ _ E2) as (A2 & B2 & C2).
    split; [|split; [|exact C2]].
    + eapply (keyed_docs _ _ h j c ops1 hs c1 _ ops2 h2 docs eq_refl Ec Ea eq_refl Nj A2 B2).
    + intros o Ho. apply elem_of_app in Ho as [Ho|Ho]; [apply elem_of_list_fmap in Ho as (y & -> & _); left|right; apply B2, Ho].
Qed.
Lemma order_nodup (s : gset nat) : NoDup (order s).
Proof. rewrite (Hord s). apply NoDup_elements. Qed.
Lemma graphs_made (h : client) ds rs : graphs (put_made h ds rs) = graphs h.
Proof. unfold graphs. rewrite (proj2 (put_made_core h ds rs)). reflexivity. Qed.
Lemma me_made (h : client) ds rs : me (put_made h ds rs) = me h.
Proof. unfold me. rewrite made_keys. reflexivity. Qed.
Definition key_events (log : list (sevent dop)) : list dop := omap (fun x => match x with ECgka o => Some o | _ => None end) log.
Lemma key_events_app a b : key_events (a ++ b) = key_events a ++ key_events b.
Proof. apply omap_app. Qed.
Lemma key_events_of l : key_events (map ECgka l) = l.
Proof. induction l as [|o l IH]; [reflexivity|]. cbn. unfold key_events in IH. cbn in IH. rewrite IH. reflexivity. Qed.
Lemma key_events_none {A} (f : A -> mop) l : key_events (map (fun x => static_of (f x)) l) = [].
Proof. induction l as [|x l IH]; [reflexivity|]. cbn. unfold key_events in IH. rewrite IH. destruct (f x); reflexivity. Qed.
Lemma keyed_from new who h h0 l hs h' : graphs h0 = graphs h -> keyed new who h0 l hs h' -> keyed new who h l hs h'.
Proof. intros E. unfold keyed. rewrite E. auto. Qed.
Lemma call_keyed h c h' log : own_call doc_content c -> (forall i, i ∈ named c -> cgka_of h i = None) -> run_call h c = Some (h', log) ->
  keyed (named c) (me h) h (key_events log) (fun j => digests_of j c) h' /\ me h' = me h.
Proof.
  intros Ow Nm E. destruct c as [i ps content|i ps content sk h0 hs hu rng|i who can content s hs|i target retain content sigs hs|j sk x rng|j ref content preds sk x rng|sk|old sk|o|x]; cbn [TransactModel.run_call own_call named] in *.
  - unfold hive_generate_group in E. destruct (generate_group _ _ _ _) as [g|]; [|discriminate]. injection E as <- <-. rewrite (key_events_none (fun x => MD (Dlg x.2 i x.1 Admin None [] content))). split; [|rewrite me_made; reflexivity]. apply keyed_nil. rewrite graphs_made. reflexivity.
  - destruct (hive_generate_doc _ _ _ _ _ _ _ _ _ _ _ _ _) as [f1 [ops|]] eqn:D; [|discriminate]. injection E as <- <-. unfold hive_generate_doc in D.
    destruct (generate_group _ _ _ _) as [g|]; [|discriminate]. destruct (prekey_individuals _ _ _ _ _); [|discriminate]. destruct (cgka_from_init _ _ _) as [c0| | |] eqn:E0; try discriminate. cbv zeta in D.
    destruct (add_keys _ _ _ _ _) as [c1 [o1| | |]] eqn:E1; try discriminate. destruct (cgka_update _ _ _ _ _ _) as [c2 [[[k op] rest]| | |]] eqn:E2; try discriminate. cbv zeta in D. injection D as <- <-.
    apply add_keys_made in E1. apply cgka_update_made in E2. pose proof (made_app _ _ _ _ _ _ _ E1 E2) as (A & B & C).
    unfold cgka_from_init in E0. apply rbind_ok in E0 as (t & _ & E0). injection E0 as <-. cbn [c_graph with_new_owner] in A, B.
    rewrite key_events_app, (key_events_none (fun x => MD (Dlg x.2 i x.1 Admin None [] content))), key_events_of. cbn [app]. specialize (Nm i (elem_of_list_here _ _)).
    set (w := put_made _ _ _). assert (Gw : graphs w = graphs h) by (unfold w; rewrite graphs_made; reflexivity). assert (Mw : me w = me h) by (unfold w; rewrite me_made; reflexivity).
    assert (Gn : graphs h !! i = None) by (unfold graphs; rewrite lookup_fmap; unfold cgka_of in Nm; rewrite Nm; reflexivity).
    split; [|exact Mw]. set (o0 := SignedOp h0 _) in *. unfold signed_by. rewrite Mw. cbn [map]. change (fun o : signed_op => DOp i (me h) true o) with (DOp i (me h) true).
    set (G1 := <[i := add_local_op graph_new o0]> (graphs h)).
    assert (K1 : kadd (graphs h) (DOp i (me h) true o0) = G1) by (unfold kadd, gat; cbn; rewrite Gn; reflexivity).
    destruct (lift_keys i (me h) (o1 ++ [op]) G1 (add_local_op graph_new o0) (lookup_insert _ _ _) B) as [F1 F2].
    split; [|split; [|split]].
    + rewrite graphs_put, Gw. cbn [foldl]. rewrite K1, F2, A. unfold G1. rewrite insert_insert. reflexivity.
    + cbn [kfits]. rewrite K1. split; [|exact F1]. intros p Hp. cbn in Hp. set_solver.
    + intros j. change (DOp i (me h) true o0 :: map (DOp i (me h) true) (o1 ++ [op])) with (map (DOp i (me h) true) (o0 :: o1 ++ [op])). rewrite lift_hashes. cbn [digests_of].
      destruct (i =? j); [|reflexivity]. cbn [map]. apply sublist_skip, C.
    + intros o Ho. apply elem_of_cons in Ho as [-> |Ho]; [split; [reflexivity|right; left]|]. apply elem_of_list_fmap in Ho as (y & -> & _). split; [reflexivity|right; left].
  - destruct (hive_add_member _ _ _ _ _ _ _ _ _ _ _) as [f1 [[d ops]|]] eqn:D; [|discriminate]. injection E as <- <-. match goal with |- keyed _ _ _ ?l _ _ /\ _ => change l with (key_events (map ECgka ops)) end. rewrite key_events_of.
    unfold hive_add_member in D. destruct (any_loop _ _); [discriminate|].
    destruct (h_groups h !! i) as [g|].
    + destruct (add_member _ _ _ _ _ _ _ _) as [[g' d']|]; [|discriminate]. cbv zeta in D. destruct (_ || _); [discriminate|]. set (w := put_made _ _ _) in D.
      assert (Gw : graphs w = graphs h) by (unfold w; rewrite graphs_made; reflexivity). assert (Mw : me w = me h) by (unfold w; rewrite me_made; reflexivity). clearbody w.
      destruct (is_reader can); [|injection D as <- <- <-; split; [apply keyed_nil, Gw|exact Mw]].
      destruct (add_to_docs _ _ _ _ _ _ _ _ _) as [h2 [ops2|]] eqn:Q; [|discriminate]. injection D as <- <- <-. apply (add_to_docs_keyed []) in Q as (A & _ & B); [|apply order_nodup]. rewrite Mw in *.
      split; [eapply keyed_from; eauto|exact B].
    + destruct (h_docs h !! i) as [g|]; [|discriminate]. destruct (add_member _ _ _ _ _ _ _ _) as [[g' d']|]; [|discriminate]. cbv zeta in D. destruct (_ || _); [discriminate|]. set (w := put_made _ _ _) in D.
      assert (Gw : graphs w = graphs h) by (unfold w; rewrite graphs_made; reflexivity). assert (Mw : me w = me h) by (unfold w; rewrite me_made; reflexivity). clearbody w.
      destruct (is_reader can); [|injection D as <- <- <-; split; [apply keyed_nil, Gw|exact Mw]].
      destruct (pick_prekeys _ _ _ _ _) as [l|]; [|discriminate]. destruct (doc_add_keys _ _ _ _ _ _) as [h2 [ops2|]] eqn:Q; [|discriminate]. injection D as <- <- <-.
      apply (doc_add_keyed []) in Q as (A & _ & B). rewrite Mw in *. split; [eapply keyed_from; eauto|exact B].
  - destruct (hive_revoke_member _ _ _ _ _ _ _ _ _ _) as [f1 [[[rs ds] ops]|]] eqn:D; [|discriminate]. injection E as <- <-. rewrite !key_events_app, (key_events_none MR), (key_events_none MD), key_events_of. cbn [app].
    unfold hive_revoke_member in D. destruct (any_loop _ _); [discriminate|].
    destruct (h_groups h !! i) as [g|].
    + destruct (behind _ _ _) as [ids|]; [|discriminate]. destruct (revoke_member _ _ _ _ _ _ _ _) as [[[g' rs'] ds']|]; [|discriminate]. destruct (revoking_hangs _ _ _ _ _); [discriminate|]. cbv zeta in D.
      set (w := put_made _ _ _) in D. assert (Gw : graphs w = graphs h) by (unfold w; rewrite graphs_made; reflexivity). assert (Mw : me w = me h) by (unfold w; rewrite me_made; reflexivity). clearbody w.
      destruct (bool_decide _); [injection D as <- <- <- <-; split; [apply keyed_nil, Gw|exact Mw]|].
      destruct (remove_from_docs _ _ _ _ _ _ _ _) as [h2 [ops2|]] eqn:Q; [|discriminate]. injection D as <- <- <- <-. apply (remove_from_docs_keyed []) in Q as (A & _ & B); [|apply order_nodup]. rewrite Mw in *.
      split; [eapply keyed_from; eauto|exact B].
    + destruct (h_docs h !! i) as [g|]; [|discriminate].
      destruct (behind _ _ _) as [ids|]; [|discriminate]. destruct (revoke_member _ _ _ _ _ _ _ _) as [[[g' rs'] ds']|]; [|discriminate]. destruct (revoking_hangs _ _ _ _ _); [discriminate|]. cbv zeta in D.
      set (w := put_made _ _ _) in D. assert (Gw : graphs w = graphs h) by (unfold w; rewrite graphs_made; reflexivity). assert (Mw : me w = me h) by (unfold w; rewrite me_made; reflexivity). clearbody w.
      destruct (group_individual_ids _ _ _) as [still|]; [|discriminate]. destruct (order (ids ∖ still)) as [|z zs]; [injection D as <- <- <- <-; split; [apply keyed_nil, Gw|exact Mw]|].
      destruct (cgka_of w i) as [c|] eqn:Ec; [|discriminate]. destruct (remove_keys _ _ _ _ _) as [c1 [ops2| | |]] eqn:Q; try (destruct (of_res _); discriminate). injection D as <- <- <- <-. apply remove_keys_made in Q.
      split; [|exact Mw]. rewrite <- Mw. eapply keyed_from; [exact Gw|]. eapply keyed_at; [exact Ec|exact Q|apply graphs_put].
  - destruct (hive_update _ _ _ _ _ _ _) as [f1 [op|]] eqn:D; [|discriminate]. injection E as <- <-. unfold hive_update in D. destruct (cgka_of h j) as [c|] eqn:Ec; [|discriminate].
    destruct (cgka_update _ _ _ _ _ _) as [c1 [[[k o] rest]| | |]] eqn:Q; try discriminate. injection D as <- <-. apply cgka_update_made in Q. split; [|reflexivity].
    apply (keyed_at _ h j c [o] _ c1); [exact Ec| |apply graphs_put]. cbn [digests_of]. rewrite Nat.eqb_refl. exact Q.
  - destruct (hive_encrypt _ _ _ _ _ _ _ _ _ _) as [f1 [[ec op]|]] eqn:D; [|discriminate]. injection E as <- <-. unfold hive_encrypt in D. destruct (cgka_of h j) as [c|] eqn:Ec; [|discriminate].
    destruct (new_app_secret_for _ _ _ _ _ _ _ _ _) as [c1 [[s o]| | |]] eqn:Q; try discriminate. injection D as <- <- <-. apply app_secret_made in Q. split; [|reflexivity]. rewrite key_events_of.
    assert (Z : option_list (signed_by h j <$> o) = map (signed_by h j) (option_list o)) by (destruct o; reflexivity). rewrite Z.
    apply (keyed_at _ h j c _ _ c1); [exact Ec| |apply graphs_put]. cbn [digests_of]. rewrite Nat.eqb_refl. exact Q.
  - destruct (make_prekey _ _ _) as [[f1 o]|] eqn:D; [|discriminate]. cbn in E. injection E as <- <-. unfold make_prekey in D. destruct (ks_indies _ !! _) as [y|]; [|discriminate]. destruct (active_expand _ _). injection D as <- <-.
    split; [|reflexivity]. apply keyed_nil. reflexivity.
  - destruct (make_prekey _ _ _) as [[f1 o]|] eqn:D; [|discriminate]. cbn in E. injection E as <- <-. unfold make_prekey in D. destruct (ks_indies _ !! _) as [y|]; [|discriminate]. destruct (active_rotate _ _ _). injection D as <- <-.
    split; [|reflexivity]. apply keyed_nil. reflexivity.
  - destruct (receive_contact_card _ _) as [k [e|]] eqn:R; [discriminate|]. injection E as <- <-. split; [apply keyed_nil; reflexivity|].
    unfold receive_contact_card in R; unfold me; cbn; destruct (ks_indies _ !! _); [destruct (receive_key _ _); injection R as <- _|injection R as <-]; reflexivity.
  - contradiction.
Qed.
End calls.
