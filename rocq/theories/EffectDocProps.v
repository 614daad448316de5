(** Removing somebody from a document who was added twice (C37, C54). *)
From Coq Require Import Arith.
From stdpp Require Import base list gmap relations.
From Verif Require Import ResModel KeysModel TreeModel OpsModel CgkaModel SecrecySpec TurnSecretSpec ShutPropsProofs.
From Verif Require Import AccessModel GroupModel GroupSpec GroupExamples GroupPropsProofs PrekeyModel HiveModel HiveSpec SyncModel DocModel DocSpec DocKeys DocProofs DocExamples.

Definition grant (d : dlg) : sevent dop := EDlg (SDlg (d_sig d) (d_issuer d) (d_delegate d) (d_can d) (d_sig <$> d_proof d) (map r_sig (d_after d)) (d_content d) true).
(** Client 1 makes document 9 and adds 2.  Both add 3; client 1 learns of what 2 did, removes 3 and encrypts. *)
Definition j0 := gen (start 1) 9 [(1, 91)] 0 40 1 (seq 2 10) 15 (seq 50 10).
Definition j0b := addm j0.1 9 2 Admin 0 92 (digests 20).
Definition told (x : dres (dlg * list dop)) : list (sevent dop) := match x with DOk (d, ops) => grant d :: sent ops | DErr _ => [] end.
Definition j_base : client := take_all (start 2) (EDlg (SDlg 91 9 1 Admin None [] 0 true) :: sent (news (fun x => x) j0.2) ++ told j0b.2).
Definition j1 := addm j0b.1 9 3 Read 0 94 (digests 30).
Definition j2 := addm j_base 9 3 Read 0 93 (digests 120).
Definition j3 := take_all j1.1 (told j2.2).
Definition j4 := revm j3 9 3 false 0 [95; 96; 97; 98] (digests 40).
Definition j5 := enc j4.1 9 1 [42] [] 45 60 (seq 170 10).
Definition j_ops : gmap digest signed_op := match cgka_of j5.1 9 with Some c => g_ops (c_graph c) | None => ∅ end.
Lemma j3_act : act j3.
Proof. unfold j3, j1, j0b, j0. acted. Qed.
Lemma j4_act : act j4.1.
Proof. unfold j4. eapply ac_revoke; [exact j3_act|apply surjective_pairing]. Qed.
Lemma opens_with (x : dres (encrypted_content * option dop)) k plain : match x with DOk (e, _) => bool_decide (content_decrypt e (AppKey k (ec_preds e) (ec_ref e)) = Some plain) | DErr _ => false end = true ->
  exists e o, x = DOk (e, o) /\ content_decrypt e (AppKey k (ec_preds e) (ec_ref e)) = Some plain.
Proof. destruct x as [[e o]|]; [|discriminate]. intros B. apply bool_decide_eq_true in B. eauto. Qed.

(** 3 was added to document 9 by clients 1 and 2 at the same time.  Client 1, who knows, removes
    3; nobody behind that place belongs to the document any more.  What client 1 encrypts then
    opens with the secret of the prekey that 3 was added with and the operations of the
    document's group key. *)
Theorem C37_added_twice_refuted : exists h h' rs ds ops h'' e o k, acting asc hord rord pk mentions h /\ person_of (h_env h) 9 3 /\
  hive_revoke_member asc hord rord h 9 3 false 0 [95; 96; 97; 98] (digests 40) = (h', DOk (rs, ds, ops)) /\ acting asc hord rord pk mentions h' /\
  ~ in_key h' 9 3 /\ ~ person_of (h_env h') 9 3 /\
  hive_encrypt hord rord h' 9 1 [42] [] 45 60 (seq 170 10) = (h'', DOk (e, o)) /\
  (exists c, cgka_of h'' 9 = Some c /\ derivable (fun s => pub s = pk 3 9) (seen (g_ops (c_graph c))) k) /\
  content_decrypt e (AppKey k (ec_preds e) (ec_ref e)) = Some [42].
Proof.
  destruct (okb_pair j4) as ([[rs ds] ops] & E4); [vm_compute; reflexivity|]. destruct (opens_with j5.2 172 [42]) as (e & o & E5 & Op); [vm_compute; reflexivity|].
  exists j3, j4.1, rs, ds, ops, j5.1, e, o, 172. split; [exact j3_act|]. split; [apply person_direct; vm_compute; reflexivity|]. split; [exact E4|]. split; [exact j4_act|].
  split; [rewrite <- keyed_in; vm_compute; discriminate|]. split; [apply (outb_ok j4.1 9 3 {[ 1; 2 ]}); vm_compute; reflexivity|].
  split; [rewrite <- E5; apply surjective_pairing|]. split; [|exact Op].
  assert (Q : exists c, cgka_of j5.1 9 = Some c /\ g_ops (c_graph c) = j_ops).
  { assert (B : (if cgka_of j5.1 9 then true else false) = true) by (vm_compute; reflexivity). unfold j_ops. destruct (cgka_of j5.1 9) as [c|]; [eauto|discriminate]. }
  destruct Q as (c & Ec & Eo). exists c. split; [exact Ec|]. rewrite Eo. apply (spreads_sound j_ops _ 6 [23]).
  - intros s Hs. apply elem_of_list_singleton in Hs as ->. apply derivable_known. reflexivity.
  - apply elem_b_spec. vm_compute. reflexivity.
Qed.
Print Assumptions C37_added_twice_refuted.
