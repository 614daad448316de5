(** Memberships and group keys together: the lemmas behind the theorems of DocProps. *)
From Coq Require Import Arith Lia.
From stdpp Require Import base list gmap relations.
From Verif Require Import ResModel KeysModel TreeModel TreeSpec TreeOps TreeRun SecrecySpec SecrecyProofs TreePropsProofs OpsModel CgkaModel.
From Verif Require Import AccessModel GroupModel CgkaSpec GroupSpec GroupHistory GroupTransitive GroupPropsProofs PrekeyModel HiveModel HiveSpec SyncModel.
From Verif Require Import DocModel DocSpec DocKeys DocProofs DocEffects.

Section props.
Context (order : gset nat -> list nat) (Hord : some_order order) (horder : gset digest -> list digest) (rorder : gset (member_id * nat) -> list (member_id * nat)).
Context (pick : ident -> ident -> share_key) (P : mop -> Prop) (WS : well_signed P).

(** The place of an individual that does not belong to the document and is not the document. *)
Lemma outside h j c i : managed order horder rorder pick P h -> is_Some (h_docs h !! j) -> cgka_of h j = Some c -> i <> j -> ~ person_of (h_env h) j i ->
  contains_id (c_tree c) i = false.
Proof.
  intros M D E N Np. destruct (managed_agrees order Hord horder rorder pick P WS h M) as [_ A]. destruct (A j D) as [_ B].
  destruct (contains_id (c_tree c) i) eqn:X; [|reflexivity]. exfalso. apply (in_key_at _ _ _ i E) in X. apply B in X as [X|X]; contradiction.
Qed.
Lemma locked_out h j c key ops pcs (C : ident -> Prop) (K : secret_key -> Prop) :
  let hist := OAdd j key :: ops in
  managed order horder rorder pick P h -> is_Some (h_docs h !! j) -> up_to_date h j key ops pcs -> cgka_of h j = Some c -> fresh_history hist ->
  (forall i, C i -> i <> j /\ ~ person_of (h_env h) j i) ->
  (forall s, K s <-> exists op, op ∈ hist /\ C (op_member op) /\ op_secret op s) ->
  (forall m p, node_key_for_id (c_tree c) m = Ok (SKey (pub p)) -> ~ K p) ->
  forall m p sks sks' root, node_key_for_id (c_tree c) m = Ok (SKey (pub p)) ->
    (forall q s, sks !! q = Some s -> pub s = q) -> sks !! pub p = Some p ->
    decrypt_tree_secret (c_tree c) m sks = (sks', Ok root) -> ~ derivable K (published pcs) root.
Proof.
  intros hist M D U E F HC HK HN. destruct U as (c0 & E0 & _ & _ & _ & R & _). rewrite E in E0. injection E0 as <-.
  apply (removed_members_locked_out_lemma j key ops (c_tree c) pcs C K R F); [|exact HK|exact HN].
  intros i Ci. destruct (HC i Ci) as [N Np]. eapply outside; eauto.
Qed.
(** After an update all that have a place read the same secret. *)
Lemma updated_readers h j sk x rng h' op : kept h j -> hive_update horder rorder h j sk x rng = (h', DOk op) ->
  exists c root, cgka_of h' j = Some c /\ forall m p sks, in_key h' j m -> node_key_for_id (c_tree c) m = Ok (SKey (pub p)) ->
    (forall q s, sks !! q = Some s -> pub s = q) -> sks !! pub p = Some p -> exists sks', decrypt_tree_secret (c_tree c) m sks = (sks', Ok root).
Proof.
  intros (key & ops & pcs & U) Q. apply good_up in U as (c & E & G). unfold hive_update in Q. rewrite E in Q.
  destruct (cgka_update horder rorder c sk x rng) as [c' r] eqn:A. injection Q as <- Q. destruct r as [[[k o] y]| | |]; try discriminate.
  destruct (update_good horder rorder j key _ _ _ _ _ _ _ _ G A) as (ops' & pcs' & G' & _ & -> & pc & ->).
  destruct (gd_tree _ _ _ _ _ G') as (t0 & Et0 & Run). rewrite run_app in Run. destruct (run t0 ops) as [[t1 p1]| | |] eqn:R1; cbn [rbind] in Run; try discriminate.
  assert (R : TreeRun.reachable j key ops t1 p1) by (exists t0; split; assumption).
  cbn [run] in Run. destruct (op_step t1 (OUpdate j sk rng)) as [[t2 o2]| | |] eqn:S; cbn [rbind] in Run; try discriminate.
  assert (t2 = c_tree c') as -> by (destruct o2; injection Run; auto).
  cbn [op_step] in S. destruct (encrypt_path t1 j (pub sk) {[ pub sk := sk ]} rng) as [[[[[t3 root] pc3] sks0] rng']| | |] eqn:EP; cbn [rbind] in S; try discriminate.
  exists c', root. split; [rewrite cgka_put, decide_True; reflexivity|]. intros m p sks _ Em Hs Hp.
  assert (Et : t3 = c_tree c') by (injection S; auto). rewrite <- Et in *. eapply (members_agree_after_update_lemma j key ops t1 p1 j sk rng); eauto.
Qed.
End props.

(** ** Operations of the group key that are received *)
Section receive.
Context (horder : gset digest -> list digest) (rorder : gset (member_id * nat) -> list (member_id * nat)).
Lemma doc_receive_other k x o j : j <> do_doc o -> cs_docs (doc_receive horder rorder k x o).1 !! j = cs_docs x !! j.
Proof.
  intros N. assert (X : forall c : option cgka, cs_docs (match c with Some c => Cgs (cs_pairs x) (<[do_doc o := c]> (cs_docs x)) | None => x end) !! j = cs_docs x !! j).
  { intros [c|]; [|reflexivity]. apply lookup_insert_ne. congruence. }
  unfold doc_receive. cbv zeta. repeat case_match; cbn [fst cs_docs]; rewrite ?lookup_insert_ne by congruence; reflexivity.
Qed.
Lemma receive_other h o h' r : receive_doc_op horder rorder h o = (h', r) -> core h h' /\ forall j, j <> do_doc o -> cgka_of h' j = cgka_of h j.
Proof.
  unfold receive_doc_op, receive_cgka. intros Q.
  assert (X : h' = h \/ h' = put_cg h (doc_receive horder rorder (h_keys h) (h_cg h) o).1).
  { repeat case_match; simplify_eq; auto; right; match goal with H : doc_receive _ _ _ _ _ = _ |- _ => rewrite H end; reflexivity. }
  destruct X as [->| ->]; [split; [apply core_refl|reflexivity]|]. split; [repeat split|]. intros j N. unfold cgka_of. cbn [put_cg h_cg]. apply doc_receive_other, N.
Qed.
End receive.
