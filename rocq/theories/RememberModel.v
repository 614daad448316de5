(** Making somebody known to a client by hand, and looking up what it knows: keyhive.rs 398-479, 1349-1424. *)
From stdpp Require Import base list gmap.
From Verif Require Import AccessModel GroupModel PrekeyModel HiveModel DocModel.

(** peer.rs: an individual, a group or a document; a group or document may come with the individual it was before. *)
Inductive peer := PIndie (x : individual) | PGroup (g : group) (x : option individual) | PDoc (g : group) (x : option individual).
(** keyhive.rs 1366-1391 [get_peer]. *)
Definition get_peer (h : client) (i : ident) : option peer :=
  match h_docs h !! i with
  | Some g => Some (PDoc g (default None (ks_docs (h_keys h) !! i)))
  | None => match h_groups h !! i with
            | Some g => Some (PGroup g (default None (ks_groups (h_keys h) !! i)))
            | None => PIndie <$> ks_indies (h_keys h) !! i
            end
  end.
(** keyhive.rs 398-416 [register_peer]. *)
Definition register_peer (h : client) (i : ident) (p : peer) : client * bool :=
  let k := h_keys h in
  match get_peer h i with
  | Some _ => (h, false)
  | None =>
      (match p with
       | PIndie x => put_keys h (set_indie k i x)
       | PGroup g x => put_group (put_keys h (KStore (ks_active k) (ks_public k) (ks_indies k) (ks_docs k) (<[i := x]> (ks_groups k)))) i g
       | PDoc g x => put_doc (put_keys h (KStore (ks_active k) (ks_public k) (ks_indies k) (<[i := x]> (ks_docs k)) (ks_groups k))) i g
       end, true)
  end.
(** keyhive.rs 419-431 [register_individual]: only the individuals are looked at. *)
Definition register_individual (h : client) (i : ident) (x : individual) : client * bool :=
  match ks_indies (h_keys h) !! i with
  | Some _ => (h, false)
  | None => (put_keys h (set_indie (h_keys h) i x), true)
  end.
(** keyhive.rs 434-463 [register_group]: looks for a group with the identifier of the subject, and files the new one under that of the
    issuer.  state.rs 47-77 puts the delegation and those it rests on into the store; that it also puts the revocations those name, and the
    delegations these rest on, is left out.  [None]: fuel. *)
Definition register_group (order : gset nat -> list nat) (h : client) (d : dlg) : option (client * bool) :=
  match h_groups h !! d_subject d with
  | Some _ => Some (h, false)
  | None => match new_group order d with
            | None => None
            | Some g => Some (new_plain_group (foldl put_dlg h (d :: lineage d)) (gr_id g) g, true)
            end
  end.
(** keyhive.rs 466-479 [get_membership_operation]: the delegations first. *)
Definition get_membership_operation (h : client) (s : sig) : option mop :=
  match h_dlgs h !! s with
  | Some d => Some (MD d)
  | None => MR <$> h_revs h !! s
  end.
