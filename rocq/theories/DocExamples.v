(** Concrete clients with documents. *)
From Coq Require Import Arith Lia.
From stdpp Require Import base list gmap relations.
From Verif Require Import ResModel KeysModel TreeModel TreeSpec TreeRun OpsModel CgkaModel.
From Verif Require Import AccessModel GroupModel CgkaSpec GroupSpec GroupTransitive GroupPropsProofs GroupExamples PrekeyModel HiveModel HiveSpec HiveExamples SyncModel.
From Verif Require Import DocModel DocSpec DocKeys DocProofs DocEffects.

(** Individuals 0 (public) to 6; individual [i] has the prekey secret [20 + i]. *)
Definition start (me : ident) : client :=
  Hive (KStore me 0 (list_to_map (map (fun i => (i, individual_new (sign i (AddKey (20 + i))))) [0;1;2;3;4;5;6])) ∅ ∅) ∅ ∅ ∅ ∅
    (Cgs {[ pub (20 + me) := 20 + me ]} ∅) [].
Definition hord : gset digest -> list digest := elements.
Definition rord : gset (member_id * nat) -> list (member_id * nat) := elements.
Definition pk (i d : ident) : share_key := if i =? 0 then pub 0 else pub (20 + i).
Definition digests (n : nat) (j : ident) : list digest := seq n 10.
Notation gg := (hive_generate_group asc).
Notation gen := (hive_generate_doc asc hord rord pk).
Notation addm := (hive_add_member asc hord rord pk).
Notation revm := (hive_revoke_member asc hord rord).
Notation enc := (hive_encrypt hord rord).
Notation upd := (hive_update hord rord).
Notation recv := (receive_doc_op hord rord).
(** Content maps: every one mentions the documents 9 and 10. *)
Definition mentions (c : nat) (i : ident) : bool := (i =? 9) || (i =? 10).
Notation act := (acting asc hord rord pk mentions).

(** ** Deciding what the examples need *)
Definition got {A} (r : dres A) : option A := match r with DOk a => Some a | DErr _ => None end.
Lemma got_1 {A B} (r : dres (A * B)) a : fst <$> got r = Some a -> exists b, r = DOk (a, b).
Proof. destruct r as [[x y]|]; cbn; [intros [= <-]; eauto|discriminate]. Qed.
Lemma got_some {A} (r : dres A) : (if got r then true else false) = true -> exists a, r = DOk a.
Proof. destruct r; cbn; [eauto|discriminate]. Qed.
Definition people (h : client) (i : ident) : gset ident := match h_env h !! i with Some m => dom m | None => ∅ end.
Lemma people_direct h i x : direct (h_env h) i x <-> x ∈ people h i.
Proof.
  unfold direct, people. destruct (h_env h !! i) as [m|]; split.
  - intros (m' & [= <-] & H). apply elem_of_dom, H.
  - intros H. exists m. split; [reflexivity|apply elem_of_dom, H].
  - intros (m' & X & _). discriminate.
  - intros H. apply not_elem_of_empty in H. contradiction.
Qed.
Lemma joined_ok h h' i who : people h' i = people h i ∪ {[ who ]} -> only_joined (h_env h) (h_env h') i who.
Proof. intros E x. rewrite !people_direct, E, elem_of_union, elem_of_singleton. reflexivity. Qed.
Lemma left_ok h h' i t : people h' i = people h i ∖ {[ t ]} -> only_left (h_env h) (h_env h') i t.
Proof. intros E x. rewrite !people_direct, E, elem_of_difference, elem_of_singleton. reflexivity. Qed.
Lemma unused_ok h i : bool_decide (h_env h !! i = None) && forallb (fun x => bool_decide (x.2 !! i = None)) (map_to_list (h_env h)) &&
  negb (i =? ks_public (h_keys h)) && negb (bool_decide (is_Some (cgka_of h i))) = true -> unused h i.
Proof.
  intros H. apply andb_prop in H as [H H4]. apply andb_prop in H as [H H3]. apply andb_prop in H as [H1 H2]. split; [apply (bool_decide_unpack _), Is_true_true, H1|].
  split; [|split].
  - intros x (m & E & [l L]). rewrite forallb_forall in H2. specialize (H2 (x, m)). cbn [snd] in H2.
    assert (X : bool_decide (m !! i = None) = true) by (apply H2, elem_of_list_In, elem_of_map_to_list, E). apply bool_decide_eq_true in X. congruence.
  - intros ->. rewrite Nat.eqb_refl in H3. discriminate.
  - apply negb_true_iff, bool_decide_eq_false in H4. destruct (cgka_of h i); [exfalso; eauto|reflexivity].
Qed.
Definition keyed (h : client) (d i : ident) : bool := match cgka_of h d with Some c => contains_id (c_tree c) i | None => false end.
Lemma keyed_in h d i : keyed h d i = true <-> in_key h d i.
Proof. unfold keyed, in_key. destruct (cgka_of h d) as [c|]; split; [eauto|intros (c' & [= <-] & H); exact H|discriminate|intros (c' & X & _); discriminate]. Qed.
(** Belonging, by what the code computes in a tidy client. *)
Definition capb (h : client) (d i : ident) : bool :=
  match h_docs h !! d with Some g => match caps_of asc h g with Some c => bool_decide (is_Some (c !! i)) && bool_decide (h_env h !! i = None) | None => false end | None => false end.
Lemma capb_person P h d i : well_signed P -> tidy asc P h -> is_Some (h_docs h !! d) -> capb h d i = true <-> person_of (h_env h) d i.
Proof.
  intros W T [g G]. unfold capb, person_of. rewrite G. destruct (caps_spec asc asc_some P W h T d g (or_intror G)) as (c & -> & K).
  assert (X : h_env h !! i = None -> i <> d). { intros X ->. destruct (env_at asc P h d g T (or_intror G)). congruence. }
  rewrite andb_true_iff, !bool_decide_eq_true. split; intros [A B]; (split; [apply K; auto|exact B]).
Qed.
Lemma fold_people h (s : gset ident) x : x ∈ set_fold (fun x acc => people h x ∪ acc) (∅ : gset ident) s <-> exists y, y ∈ s /\ x ∈ people h y.
Proof.
  apply (set_fold_ind_L (fun (acc : gset ident) s => x ∈ acc <-> exists y, y ∈ s /\ x ∈ people h y)).
  - split; [intros H; apply not_elem_of_empty in H; contradiction|]. intros (y & H & _). apply not_elem_of_empty in H. contradiction.
  - intros y X r Ny IH. rewrite elem_of_union, IH. split.
    + intros [H|(z & Hz & H)]; [exists y; split; [set_solver|exact H]|exists z; split; [set_solver|exact H]].
    + intros (z & Hz & H). apply elem_of_union in Hz as [Hz|Hz]; [apply elem_of_singleton in Hz as ->; auto|right; eauto].
Qed.
(** A set that is closed under members contains all that belong. *)
Lemma closed_outside h d (s : gset ident) i : people h d ⊆ s -> set_fold (fun x acc => people h x ∪ acc) (∅ : gset ident) s ⊆ s -> i ∉ s -> ~ belongs (h_env h) d i.
Proof.
  intros D C N B. assert (X : forall a b, rtc (direct (h_env h)) a b -> a ∈ s -> b ∈ s).
  { induction 1 as [|a b c H _ IH]; [auto|]. intros Ha. apply IH, C, fold_people. exists a. split; [exact Ha|]. apply people_direct, H. }
  apply tc_first in B as (b & H & R). apply N, (X b i R), D, people_direct, H.
Qed.
Definition outb (h : client) (d i : ident) (s : gset ident) : bool :=
  bool_decide (people h d ⊆ s) && bool_decide (set_fold (fun x acc => people h x ∪ acc) (∅ : gset ident) s ⊆ s) && bool_decide (i ∉ s).
Lemma outb_ok h d i s : outb h d i s = true -> ~ person_of (h_env h) d i.
Proof.
  unfold outb. intros H. apply andb_prop in H as [H H3]. apply andb_prop in H as [H1 H2]. apply bool_decide_eq_true in H1, H2, H3. intros [B _]. eapply closed_outside; eauto.
Qed.
(** Through one group, or directly. *)
Lemma person_direct h d i : bool_decide (i ∈ people h d) && bool_decide (h_env h !! i = None) = true -> person_of (h_env h) d i.
Proof. intros H. apply andb_prop in H as [H1 H2]. apply bool_decide_eq_true in H1, H2. split; [apply tc_once, people_direct, H1|exact H2]. Qed.
Lemma person_through h d g i : bool_decide (g ∈ people h d) && bool_decide (i ∈ people h g) && bool_decide (h_env h !! i = None) = true -> person_of (h_env h) d i.
Proof.
  intros H. apply andb_prop in H as [H H3]. apply andb_prop in H as [H1 H2]. apply bool_decide_eq_true in H1, H2, H3.
  split; [eapply tc_l; [apply people_direct, H1|apply tc_once, people_direct, H2]|exact H3].
Qed.

(** ** A client that makes a group and a document, and adds and removes members *)
Definition dl s issuer who can p : dlg := Dlg s issuer who can p [] 0.
Definition g_root := dl 90 7 1 Admin None.
Definition d_root := dl 91 9 1 Admin None.
Definition d_team := dl 92 9 7 Admin None.
Definition g_three := dl 93 1 3 Read (Some g_root).
Definition d_four := dl 94 1 4 Read (Some d_root).
Definition r_four := Rev 95 1 d_four (Some d_four) 0.
Definition r_three := Rev 98 1 g_three (Some g_three) 0.
Definition said : list mop := [MD g_root; MD d_root; MD d_team; MD g_three; MD d_four; MR r_four; MR r_three].
Definition Said (o : mop) : Prop := o ∈ said.
Lemma said_signed : well_signed Said.
Proof.
  split.
  - intros a b A B E. unfold Said, said in A, B. repeat (apply elem_of_cons in A as [->|A]; [repeat (apply elem_of_cons in B as [->|B]; [first [reflexivity|discriminate]|]); inversion B|]). inversion A.
  - intros i a b [A SA] [B SB] E1 E2 E3 E4 E5. unfold Said, said in A, B.
    repeat (apply elem_of_cons in A as [A|A]; [try discriminate A; injection A as ->; repeat (apply elem_of_cons in B as [B|B]; [try discriminate B; injection B as ->; first [reflexivity|discriminate|cbn in SA, SB; congruence]|]); inversion B|]). inversion A.
Qed.
Definition m0 := start 1.
Definition m1 := (gg m0 7 [(1, 90)] 0).1.
Definition m2 := (gen m1 9 [(1, 91); (7, 92)] 0 40 1 (seq 2 10) 15 (seq 50 10)).1.
Definition m3 := (addm m2 7 3 Read 0 93 (digests 20)).1.
Definition m4 := (addm m3 9 4 Read 0 94 (digests 30)).1.
Definition m5 := (revm m4 9 4 false 0 [95; 96; 97] (digests 35)).1.
Definition m6 := (revm m5 7 3 false 0 [98; 99; 100] (digests 40)).1.
Definition m7 := (enc m6 9 1 [42] [] 45 60 (seq 70 10)).1.
Notation man := (managed asc hord rord pk Said).
Ltac sets := apply (bool_decide_unpack _); vm_compute; exact I.
Lemma pair_2 {A B} (x : A * B) b : x.2 = b -> x = (x.1, b).
Proof. destruct x. cbn. intros ->. reflexivity. Qed.
Lemma m1_managed : man m1.
Proof.
  eapply (mg_group _ _ _ _ _ m0 7 [(1, 90)] 0).
  - apply mg_start; reflexivity.
  - apply unused_ok. vm_compute. reflexivity.
  - discriminate.
  - sets.
  - sets.
  - intros x Hx. apply elem_of_list_singleton in Hx as ->. left.
  - apply pair_2. vm_compute. reflexivity.
Qed.
Lemma m2_managed : man m2.
Proof.
  destruct (got_some (gen m1 9 [(1, 91); (7, 92)] 0 40 1 (seq 2 10) 15 (seq 50 10)).2) as (ops & E); [vm_compute; reflexivity|].
  eapply (mg_doc _ _ _ _ _ m1 9 [(1, 91); (7, 92)] 0 40 1 (seq 2 10) 15 (seq 50 10)).
  - exact m1_managed.
  - apply unused_ok. vm_compute. reflexivity.
  - discriminate.
  - sets.
  - sets.
  - intros x Hx. apply elem_of_cons in Hx as [->|Hx]; [right; left|]. apply elem_of_list_singleton in Hx as ->. right. right. left.
  - unfold m2. apply pair_2. exact E.
Qed.
Lemma m3_managed : man m3.
Proof.
  destruct (got_1 (addm m2 7 3 Read 0 93 (digests 20)).2 g_three) as (ops & E); [vm_compute; reflexivity|].
  eapply (mg_add _ _ _ _ _ m2 7 3 Read 0 93 (digests 20) _ g_three ops).
  - exact m2_managed.
  - reflexivity.
  - intros [g X]. vm_compute in X. discriminate.
  - unfold m3. apply pair_2. exact E.
  - do 3 right. left.
  - apply joined_ok. sets.
Qed.
Lemma only_doc P h : well_signed P -> tidy asc P h -> any_loop asc h = false -> dom (h_docs h) = {[ 9 ]} -> not_nested h 9.
Proof.
  intros W T L D _ j Hj B. apply elem_of_dom in Hj. rewrite D in Hj. apply elem_of_singleton in Hj as ->. apply (no_loops asc asc_some P W h T L 9 B).
Qed.
Lemma man_tidy h : man h -> tidy asc Said h.
Proof. intros M. apply (managed_agrees asc asc_some hord rord pk Said said_signed h M). Qed.
Lemma m4_managed : man m4.
Proof.
  destruct (got_1 (addm m3 9 4 Read 0 94 (digests 30)).2 d_four) as (ops & E); [vm_compute; reflexivity|].
  eapply (mg_add _ _ _ _ _ m3 9 4 Read 0 94 (digests 30) _ d_four ops).
  - exact m3_managed.
  - reflexivity.
  - apply (only_doc Said); [exact said_signed|apply man_tidy, m3_managed|vm_compute; reflexivity|sets].
  - unfold m4. apply pair_2. exact E.
  - do 4 right. left.
  - apply joined_ok. sets.
Qed.
Lemma m5_managed : man m5.
Proof.
  destruct (got_1 (revm m4 9 4 false 0 [95; 96; 97] (digests 35)).2 ([r_four], [])) as (ops & E); [vm_compute; reflexivity|].
  eapply (mg_revoke _ _ _ _ _ m4 9 4 false 0 [95; 96; 97] (digests 35) _ [r_four] [] ops).
  - exact m4_managed.
  - apply (only_doc Said); [exact said_signed|apply man_tidy, m4_managed|vm_compute; reflexivity|sets].
  - unfold m5. apply pair_2. exact E.
  - intros r Hr. apply elem_of_list_singleton in Hr as ->. do 5 right. left.
  - intros d Hd. inversion Hd.
  - apply left_ok. sets.
Qed.
Lemma m6_managed : man m6.
Proof.
  destruct (got_1 (revm m5 7 3 false 0 [98; 99; 100] (digests 40)).2 ([r_three], [])) as (ops & E); [vm_compute; reflexivity|].
  eapply (mg_revoke _ _ _ _ _ m5 7 3 false 0 [98; 99; 100] (digests 40) _ [r_three] [] ops).
  - exact m5_managed.
  - intros [g X]. vm_compute in X. discriminate.
  - unfold m6. apply pair_2. exact E.
  - intros r Hr. apply elem_of_list_singleton in Hr as ->. do 6 right. left.
  - intros d Hd. inversion Hd.
  - apply left_ok. sets.
Qed.
Lemma m7_managed : man m7.
Proof. eapply mg_encrypt; [exact m6_managed|apply surjective_pairing]. Qed.

(** ** Clients that take part in less tidy histories *)
Definition okb {A} (x : dres A) : bool := match x with DOk _ => true | DErr _ => false end.
Lemma okb_pair {A B} (x : A * dres B) : okb x.2 = true -> exists b, x = (x.1, DOk b).
Proof. destruct x as [a [b|e]]; cbn; [eauto|discriminate]. Qed.
Definition take1 (h : client) (x : sevent dop) : client := (receive_event asc mentions do_doc do_ok (doc_receive hord rord) h x).1.
Definition take_all (h : client) (l : list (sevent dop)) : client := foldl take1 h l.
Lemma act_take h l : act h -> act (take_all h l).
Proof. revert h. induction l as [|x l IH]; intros h A; [exact A|]. cbn. apply IH. eapply ac_receive; [exact A|apply surjective_pairing]. Qed.
(** The operations of the group key of document 9, signed by [who]. *)
Definition wire (who : ident) (l : list signed_op) : list (sevent dop) := map (fun o => ECgka (DOp 9 who true o)) l.
Definition sent (l : list dop) : list (sevent dop) := map ECgka l.
Definition news {A} (f : A -> list dop) (x : dres A) : list dop := match x with DOk a => f a | DErr _ => [] end.
Ltac acted := repeat match goal with
  | |- act (take_all _ _) => apply act_take
  | |- act (start _) => apply ac_start; reflexivity
  | |- act (fst (hive_generate_group _ _ _ _ _)) => eapply ac_group; [|apply surjective_pairing]
  | |- act (fst (hive_generate_doc _ _ _ _ _ _ _ _ _ _ _ _ _)) => eapply ac_doc; [|apply surjective_pairing]
  | |- act (fst (hive_add_member _ _ _ _ _ _ _ _ _ _ _)) => eapply ac_add; [|apply surjective_pairing]
  | |- act (fst (hive_revoke_member _ _ _ _ _ _ _ _ _ _)) => eapply ac_revoke; [|apply surjective_pairing]
  | |- act (fst (hive_update _ _ _ _ _ _ _)) => eapply ac_update; [|apply surjective_pairing]
  | |- act (fst (hive_encrypt _ _ _ _ _ _ _ _ _ _)) => eapply ac_encrypt; [|apply surjective_pairing]
  end.

(** The grant of 3 rests on that of 1, which ends. *)
Definition f1 := gen (gg (start 1) 7 [(1, 90)] 0).1 9 [(7, 91)] 0 40 1 (seq 2 10) 15 (seq 50 10).
Definition f2 := addm f1.1 9 1 Admin 0 92 (digests 20).
Definition f3 := addm f2.1 9 3 Read 0 93 (digests 30).
Definition f4 := revm f3.1 9 1 false 0 [95; 96; 97] (digests 40).
Lemma f4_act : act f4.1.
Proof. unfold f4, f3, f2, f1. acted. Qed.
(** A team that may only relay gets a new member. *)
Definition b1 := gen (gg (start 1) 7 [(1, 90)] 0).1 9 [(1, 91)] 0 40 1 (seq 2 10) 15 (seq 50 10).
Definition b2 := addm b1.1 9 7 Relay 0 92 (digests 20).
Definition b3 := addm b2.1 7 3 Read 0 93 (digests 30).
Lemma b3_act : act b3.1.
Proof. unfold b3, b2, b1. acted. Qed.
(** Document 9 is a member of document 10. *)
Definition n0 := addm (gen (start 1) 9 [(1, 91)] 0 40 1 (seq 2 10) 15 (seq 50 10)).1 9 3 Read 0 92 (digests 20).
Definition n1 := gen n0.1 10 [(1, 101); (9, 102)] 0 41 101 (seq 102 10) 115 (seq 150 10).
Definition n2 := addm n1.1 9 4 Read 0 103 (digests 120).
Definition n3 := revm n1.1 9 3 false 0 [104; 105] (digests 120).
Lemma n2_act : act n2.1.
Proof. unfold n2, n1, n0. acted. Qed.
Lemma n3_act : act n3.1.
Proof. unfold n3, n1, n0. acted. Qed.
(** An operation of the group key arrives late, before a removal. *)
Definition l0 := gen (start 1) 9 [(1, 91)] 0 40 1 (seq 2 10) 15 (seq 50 10).
Definition l1 := addm l0.1 9 3 Relay 0 92 (digests 20).
Definition l_op : list signed_op := match cgka_of l1.1 9 with Some c => match (cgka_add hord rord c 3 (pub 23) 80).2 with Ok (Some o) => [o] | _ => [] end | None => [] end.
Definition l2 := upd l1.1 9 41 81 (seq 61 10).
Definition l3 := take_all l2.1 (wire 2 l_op).
Definition l4 := revm l3 9 3 false 0 [95; 96; 97] (digests 30).
Definition l5 := enc l4.1 9 1 [42] [] 45 60 (seq 170 10).
Lemma l4_act : act l4.1.
Proof. unfold l4, l3, l2, l1, l0. acted. Qed.
(** Client 1 makes document 9 for itself and 2; client 2 learns all about it. *)
Definition k1 := gen (start 1) 9 [(1, 91); (2, 92)] 0 40 1 (seq 2 10) 15 (seq 50 10).
Definition k_grants : list (sevent dop) := [EDlg (SDlg 91 9 1 Admin None [] 0 true); EDlg (SDlg 92 9 2 Admin None [] 0 true)].
Definition k2 := take_all (start 2) (k_grants ++ sent (news (fun x => x) k1.2)).
(** Stranger 5 has seen the same, and adds itself to the group key. *)
Definition k5 := take_all (start 5) (k_grants ++ sent (news (fun x => x) k1.2)).
Definition k_in : list signed_op := match cgka_of k5 9 with Some c => match (cgka_add hord rord c 5 (pub 25) 80).2 with Ok (Some o) => [o] | _ => [] end | None => [] end.
Definition k2_in := take_all k2 (wire 5 k_in).
Definition k2_enc := enc k2_in 9 1 [42] [] 45 60 (seq 70 10).
Definition k5_after := take_all k5 (wire 5 k_in ++ sent (news (fun x => option_list x.2) k2_enc.2)).
Lemma k2_act : act k2.
Proof. unfold k2. acted. Qed.
Lemma k5_after_act : act k5_after.
Proof. unfold k5_after, k5. acted. Qed.
(** Client 1 removes itself; client 2 learns of it and encrypts. *)
Definition q1 := revm k1.1 9 1 false 0 [95; 96; 97] (digests 30).
Definition q2 := take_all k2 (match q1.2 with DOk (rs, ds, ops) => map (fun r => ERev (SRev (r_sig r) (r_issuer r) (d_sig (r_revoke r)) (d_sig <$> r_proof r) (r_content r) true)) rs ++ sent ops | DErr _ => [] end).
Definition q2_enc := enc q2 9 1 [42] [] 45 60 (seq 70 10).
Definition q1_after := take_all q1.1 (sent (news (fun x => option_list x.2) q2_enc.2)).
Lemma q2_act : act q2.
Proof. unfold q2. apply act_take, k2_act. Qed.
Lemma q1_after_act : act q1_after.
Proof. unfold q1_after, q1, k1. acted. Qed.
Definition reads (h : client) (x : dres (encrypted_content * option dop)) : option (list nat) :=
  match x with DOk (e, _) => (hive_decrypt rord h 9 e).2 | DErr _ => None end.
