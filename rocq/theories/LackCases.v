(** Concrete cases of C68. *)
From Coq Require Import Arith Lia.
From stdpp Require Import base list gmap relations.
From Verif Require Import ResModel KeysModel TreeModel TreeSpec TreeRun OpsModel CgkaModel.
From Verif Require Import AccessModel GroupModel CgkaSpec GroupSpec GroupTransitive GroupPropsProofs GroupExamples PrekeyModel HiveModel HiveSpec HiveExamples SyncModel.
From Verif Require Import DocModel DocSpec DocExamples TeamSpec TransactModel ArriveModel SettleSpec SettleProps SettleCases LackModel LackSpec LackProofs LackProps.

(** The delegation to individual 3 needs the first delegation of the group; with it, it is taken. *)
Definition y_three : sdlg := SDlg 93 1 3 Read (Some 90) [] 0 true.
Example C68_delegation_case : authentic (EDlg y_three) /\ ~ has_taken (start 2) (EDlg y_three) /\ lacks (start 2) (EDlg y_three) /\ ms (start 2) (EDlg y_three) = Some true /\
  ~ lacks (rcv (start 2) e_root).1 (EDlg y_three) /\ ms (rcv (start 2) e_root).1 (EDlg y_three) = None.
Proof.
  assert (A : authentic (EDlg y_three)) by reflexivity.
  assert (N : ~ has_taken (start 2) (EDlg y_three)) by (vm_compute; intros [? X]; discriminate).
  assert (L : lacks (start 2) (EDlg y_three)) by (left; exists 90; split; vm_compute; reflexivity).
  assert (N' : ~ has_taken (rcv (start 2) e_root).1 (EDlg y_three)) by (vm_compute; intros [? X]; discriminate).
  assert (M : ms (rcv (start 2) e_root).1 (EDlg y_three) = None) by (vm_compute; reflexivity).
  split; [exact A|]. split; [exact N|]. split; [exact L|]. split; [exact (proj2 (C68_delegation asc mentions hord rord _ _ A N) L)|]. split; [|exact M].
  intros X. apply (C68_delegation asc mentions hord rord _ _ A N') in X. rewrite M in X. discriminate.
Qed.
(** Its revocation needs it. *)
Definition y_gone : srev := SRev 98 1 93 (Some 93) 0 true.
Example C68_revocation_case : authentic (ERev y_gone) /\ ~ has_taken (start 2) (ERev y_gone) /\ lacks (start 2) (ERev y_gone) /\ ms (start 2) (ERev y_gone) = Some true /\
  ms (take_all (start 2) [e_root; e_three]) (ERev y_gone) = None.
Proof.
  assert (A : authentic (ERev y_gone)) by reflexivity.
  assert (N : ~ has_taken (start 2) (ERev y_gone)) by (vm_compute; intros [? X]; discriminate).
  assert (L : lacks (start 2) (ERev y_gone)) by (left; vm_compute; reflexivity).
  split; [exact A|]. split; [exact N|]. split; [exact L|]. split; [exact (proj2 (C68_revocation asc mentions hord rord _ _ A N) L)|]. vm_compute. reflexivity.
Qed.
(** The last operation of the creation of a document needs the one before it. *)
Definition y_last : dop := match sent (news (fun x => x) k1.2) !! 3 with Some (ECgka o) => o | _ => DOp 0 0 false (SignedOp 0 (CRemove 0 0 [] [])) end.
Definition y_doc : client := take_all (start 2) (k_grants ++ firstn 1 (sent (news (fun x => x) k1.2))).
Example C68_key_case : authentic (ECgka y_last) /\ ~ has_taken y_doc (ECgka y_last) /\ is_Some (h_docs y_doc !! do_doc y_last) /\ ~ sealed_from y_doc (ECgka y_last) /\
  lacks y_doc (ECgka y_last) /\ ms y_doc (ECgka y_last) = Some true.
Proof.
  assert (A : authentic (ECgka y_last)) by (vm_compute; reflexivity).
  assert (N : ~ has_taken y_doc (ECgka y_last)) by (vm_compute; intros [? X]; discriminate).
  assert (D : is_Some (h_docs y_doc !! do_doc y_last)) by (apply (bool_decide_unpack _); vm_compute; exact I).
  assert (M : ~ sealed_from y_doc (ECgka y_last)) by (intros (p & n & ps & qs & X & _); vm_compute in X; discriminate).
  assert (L : lacks y_doc (ECgka y_last)).
  { exists 3. split; [apply (bool_decide_unpack _); vm_compute; exact I|vm_compute; reflexivity]. }
  split; [exact A|]. split; [exact N|]. split; [exact D|]. split; [exact M|]. split; [exact L|]. exact (C68_key asc mentions hord rord _ _ A N D M L).
Qed.
(** A forged delegation. *)
Definition y_forged : sevent dop := EDlg (SDlg 93 1 3 Admin (Some 90) [] 0 false).
Example C68_forged_case : ~ authentic y_forged /\ ~ has_taken a1 y_forged /\ ms a1 y_forged = Some false.
Proof.
  assert (A : ~ authentic y_forged) by discriminate. assert (N : ~ has_taken a1 y_forged) by (vm_compute; intros [? X]; discriminate).
  split; [exact A|]. split; [exact N|]. exact (proj1 (C68_forged asc mentions hord rord _ _ A N)).
Qed.
