(** C68: what a client says about the events it refuses. *)
From Coq Require Import Arith Lia.
From stdpp Require Import base list gmap relations.
From Verif Require Import ResModel KeysModel TreeModel TreeSpec TreeRun OpsModel CgkaModel.
From Verif Require Import AccessModel GroupModel CgkaSpec GroupSpec GroupTransitive GroupPropsProofs GroupExamples PrekeyModel HiveModel HiveSpec HiveExamples SyncModel.
From Verif Require Import DocModel DocSpec DocExamples TeamSpec TransactModel ArriveModel SettleSpec SettleProps SettleCases LackModel LackSpec LackProofs.

Section props.
Context (order : gset nat -> list nat) (mentions : nat -> ident -> bool) (horder : gset digest -> list digest) (rorder : gset (member_id * nat) -> list (member_id * nat)).
Notation rcv := (receive_event order mentions do_doc do_ok (doc_receive horder rorder)).
Notation mis := (missing order mentions horder rorder).

(** The question is about a refusal: there is an answer exactly when the call returns an error. *)
Theorem C68_answers h x : (exists b, mis h x = Some b) <-> (exists e, (rcv h x).2 = HFail e).
Proof. apply missing_some. Qed.
(** In every state: a genuine delegation that is new is refused for want of something exactly when the proof, the delegate or a
    revocation that it names is not known. *)
Theorem C68_delegation h d : authentic (EDlg d) -> ~ has_taken h (EDlg d) -> mis h (EDlg d) = Some true <-> lacks h (EDlg d).
Proof. intros A N. apply missing_dlg; [exact A|]. apply eq_None_not_Some, N. Qed.
(** And a revocation exactly when what it revokes or its proof is not known. *)
Theorem C68_revocation h r : authentic (ERev r) -> ~ has_taken h (ERev r) -> mis h (ERev r) = Some true <-> lacks h (ERev r).
Proof. intros A N. apply missing_rev; [exact A|]. apply eq_None_not_Some, N. Qed.
(** An operation of the key of a known document that comes before its predecessors is refused for want of them, unless it adds the owner of the
    client with a prekey whose secret the client has not got. *)
Theorem C68_key h o : authentic (ECgka o) -> ~ has_taken h (ECgka o) -> is_Some (h_docs h !! do_doc o) -> ~ sealed_from h (ECgka o) -> lacks h (ECgka o) -> mis h (ECgka o) = Some true.
Proof. intros A N D M L. apply missing_key; assumption. Qed.
(** An event with a bad signature is never said to lack something, no client takes it, and it changes nothing. *)
Theorem C68_forged h x : ~ authentic x -> ~ has_taken h x -> mis h x = Some false /\ exists e, rcv h x = (h, HFail e).
Proof. apply forged_refused. Qed.
End props.
Print Assumptions C68_answers.
Print Assumptions C68_delegation.
Print Assumptions C68_revocation.
Print Assumptions C68_key.
Print Assumptions C68_forged.

Notation ms := (missing asc mentions hord rord).
(** ** A refusal that is said not to be for want of something can be overcome by what arrives later *)
(** A new operation of the key of a document whose first delegation has not arrived: the error says that nothing is missing, and the
    same operation is taken once the delegation is there. *)
Definition x_first : sevent dop := match sent (news (fun x => x) k1.2) with x :: _ => x | [] => e_root end.
Theorem C68_document_refuted : exists x l, authentic x /\ ms (start 2) x = Some false /\ ~ has_taken (take_all (start 2) l) x /\ ms (take_all (start 2) l) x = None.
Proof.
  exists x_first, k_grants. split; [vm_compute; reflexivity|]. split; [vm_compute; reflexivity|]. split; [|vm_compute; reflexivity]. vm_compute. intros [? X]. discriminate.
Qed.
Print Assumptions C68_document_refuted.
(** The addition of the owner of a client to the key of a document, before the client has the secret of the prekey (it is a second device): the
    error says that nothing is missing, and the same operation is taken once the secret was imported. *)
Definition x_two : sevent dop := default e_root (sent (news (fun x => x) k1.2) !! 2).
Definition x_bare : client := take_all (put_cg (start 2) (Cgs ∅ ∅)) (k_grants ++ firstn 2 (sent (news (fun x => x) k1.2))).
Definition x_import : option (client * list (sevent dop)) := import_secrets asc mentions hord rord (fun l => l) x_bare (export_secrets (start 2)).
Definition x_known (h : client) (x : sevent dop) : bool := match x with ECgka o => bool_decide (is_Some (known_ops h (do_doc o) !! so_hash (do_op o))) | _ => true end.
Lemma x_unknown h x : x_known h x = false -> ~ has_taken h x.
Proof. destruct x; try discriminate. apply bool_decide_eq_false_1. Qed.
Theorem C68_secret_refuted : exists x l h e, authentic x /\ ms x_bare x = Some false /\ import_secrets asc mentions hord rord (fun l => l) x_bare l = Some (h, e) /\ ~ has_taken h x /\ ms h x = None.
Proof.
  assert (X : (fun p => (x_known p.1 x_two, ms p.1 x_two)) <$> x_import = Some (false, None)) by (vm_compute; reflexivity).
  assert (A : authentic x_two) by (vm_compute; reflexivity). assert (B : ms x_bare x_two = Some false) by (vm_compute; reflexivity).
  destruct x_import as [[h e]|] eqn:E; [|discriminate X]. cbn [fmap option_fmap option_map fst] in X. apply (inj Some) in X. apply pair_equal_spec in X as [K M].
  exists x_two, (export_secrets (start 2)), h, e. split; [exact A|]. split; [exact B|]. split; [exact E|]. split; [apply x_unknown, K|exact M].
Qed.
Print Assumptions C68_secret_refuted.
(** A delegation by a member of a group that is a member, before the delegation that made them a member has arrived: the group refuses the
    chain, the error says that nothing is missing, and the same delegation is taken later. *)
Definition x_team : list (sevent dop) := [e_root; EDlg (SDlg 81 8 7 Admin None [] 0 true)].
Definition x_by_three : sevent dop := EDlg (SDlg 82 3 5 Read (Some 81) [] 0 true).
Theorem C68_chain_refuted : exists h x l, h = take_all (start 2) x_team /\ authentic x /\ ms h x = Some false /\ ~ has_taken (take_all h l) x /\ ms (take_all h l) x = None.
Proof.
  exists (take_all (start 2) x_team), x_by_three, [e_three]. split; [reflexivity|]. split; [reflexivity|]. split; [vm_compute; reflexivity|]. split; [|vm_compute; reflexivity]. vm_compute. intros [? X]. discriminate.
Qed.
Print Assumptions C68_chain_refuted.
