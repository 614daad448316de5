(** What a client answers when asked who has access to what: keyhive.rs 745-827 and, in keyhive_wasm, js/keyhive.rs 328-342, 687-765. *)
From stdpp Require Import base list gmap.
From Verif Require Import AccessModel GroupModel PrekeyModel HiveModel SyncModel DocModel.

Section query.
Context (order : gset nat -> list nat).

(** keyhive.rs 754-763 [reachable_members] of a group or document that the client has ([None]: it has no such group, or the
    search runs out of fuel, which [C63_members] excludes).  The lock of the group is held while the locks of the others are taken one
    by one; the group itself is skipped (group.rs 309), so that nothing is waited for that is held. *)
Definition membered_at (h : client) (i : ident) : option group := match h_docs h !! i with Some g => Some g | None => h_groups h !! i end.
Definition reachable_members (h : client) (i : ident) : option (gmap ident access) :=
  match membered_at h i with Some g => caps_of order h g | None => None end.
(** keyhive.rs 773-786: the documents are gone through one after the other; the result is a map by [doc_id]. *)
Definition note_access (h : client) (a : ident) (acc : option (gmap ident access)) (g : group) : option (gmap ident access) :=
  match acc, caps_of order h g with
  | Some m, Some caps => Some (match caps !! a with Some c => <[gr_id g := c]> m | None => m end)
  | _, _ => None
  end.
(** keyhive.rs 766-789 [docs_reachable_by_agent]. *)
Definition docs_reachable_by (h : client) (a : ident) : option (gmap ident access) := foldl (note_access h a) (Some ∅) (entries order (h_docs h)).
(** keyhive.rs 793-827 [membered_reachable_by_agent]: groups first. *)
Definition membered_reachable_by (h : client) (a : ident) : option (gmap ident access) :=
  foldl (note_access h a) (Some ∅) (entries order (h_groups h) ++ entries order (h_docs h)).
(** keyhive.rs 746-751 [reachable_docs], js/keyhive.rs 328-342 [reachable_docs]. *)
Definition reachable_docs (h : client) : option (gmap ident access) := docs_reachable_by h (me h).

(** js/keyhive.rs 733-742 [access_for_doc]: the outer [option] is the fuel. *)
Definition access_for_doc (h : client) (a i : ident) : option (option access) :=
  match h_docs h !! i with
  | None => Some None
  | Some g => match caps_of order h g with Some caps => Some (caps !! a) | None => None end
  end.
(** js/keyhive.rs 748-765 [best_access_for_doc]. *)
Definition best_access_for_doc (h : client) (a i : ident) : option (option access) :=
  match h_docs h !! i with
  | None => Some None
  | Some g =>
      match caps_of order h g with
      | None => None
      | Some caps =>
          Some (match caps !! a, caps !! ks_public (h_keys h) with
                | Some d, Some p => Some (amax d p)
                | Some d, None => Some d
                | None, Some p => Some p
                | None, None => None
                end)
      end
  end.
(** js/keyhive.rs 687-708 [doc_member_capabilities]: without the document itself, and without groups and documents.  A list in the code,
    here a map, since its entries come from one.  In the code an agent carries what it was when the delegation was resolved; here it is an
    individual if the client has no group or document of that identifier. *)
Definition individuals_of (h : client) (i : ident) (m : gmap ident access) : gmap ident access :=
  filter (fun x : ident * access => x.1 <> i /\ h_env h !! x.1 = None) m.
Definition doc_member_capabilities (h : client) (i : ident) : option (gmap ident access) :=
  match h_docs h !! i with
  | None => Some ∅
  | Some g => individuals_of h i <$> caps_of order h g
  end.
(** js/keyhive.rs 711-730 [revoked_members_for_doc]. *)
Definition revoked_members_for_doc (h : client) (i : ident) : gmap ident access :=
  match h_docs h !! i with
  | None => ∅
  | Some g => individuals_of h i (revoked_members order g)
  end.
End query.
