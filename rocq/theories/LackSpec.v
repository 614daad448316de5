(** What it means that a client lacks something that an event names. *)
From stdpp Require Import base list gmap.
From Verif Require Import ResModel KeysModel TreeModel OpsModel CgkaModel.
From Verif Require Import AccessModel GroupModel PrekeyModel HiveModel HiveSpec DocModel TeamSpec.

(** The client knows an individual, a group or a document with this identifier. *)
Definition has_agent (h : client) (i : ident) : Prop :=
  i = me h \/ is_Some (h_docs h !! i) \/ is_Some (h_groups h !! i) \/ is_Some (ks_indies (h_keys h) !! i).
(** A delegation names its proof, its delegate and the revocations it comes after; a revocation names what it revokes and its proof. *)
Definition lacks (h : client) (x : sevent dop) : Prop :=
  match x with
  | EDlg d => (exists s, sd_proof d = Some s /\ h_dlgs h !! s = None) \/ ~ has_agent h (sd_delegate d) \/ (exists s, s ∈ sd_after d /\ h_revs h !! s = None)
  | ERev r => h_dlgs h !! sr_revoke r = None \/ (exists s, sr_proof r = Some s /\ h_dlgs h !! s = None)
  | ECgka o => exists p, p ∈ op_preds (so_op (do_op o)) /\ known_ops h (do_doc o) !! p = None
  | EKey _ => False
  end.
(** The signature of the event is good. *)
Definition authentic (x : sevent dop) : Prop :=
  match x with EDlg d => sd_ok d = true | ERev r => sr_ok r = true | ECgka o => do_ok o = true | EKey _ => True end.
(** The client has taken the event before. *)
Definition has_taken (h : client) (x : sevent dop) : Prop :=
  match x with
  | EDlg d => is_Some (h_dlgs h !! sd_sig d)
  | ERev r => is_Some (h_revs h !! sr_sig r)
  | ECgka o => is_Some (known_ops h (do_doc o) !! so_hash (do_op o))
  | EKey _ => False
  end.
(** The event adds the owner of the client to a group key with a prekey whose secret the client has not got. *)
Definition sealed_from (h : client) (x : sevent dop) : Prop :=
  match x with
  | ECgka o => exists pk n ps qs, so_op (do_op o) = CAdd (me h) pk n ps qs /\ cs_pairs (h_cg h) !! pk = None
  | _ => False
  end.
