(** Specification of receiving events: which operations a client should take, given all the events
    it was ever handed. *)
From stdpp Require Import base list gmap relations.
From Verif Require Import AccessModel GroupModel CgkaSpec GroupSpec PrekeyModel HiveModel.

(** The group an operation is about. *)
Definition op_subject (o : mop) : ident := match o with MD d => d_subject d | MR r => r_subject r end.
(** The signature (and digest) of a membership event. *)
Definition ev_sig {cop} (x : sevent cop) : option sig :=
  match x with EDlg d => Some (sd_sig d) | ERev r => Some (sr_sig r) | _ => None end.
(** Every link has at least the access of [d] and was signed by the delegate of the link above. *)
Definition good_chain (d : dlg) : Prop := forall a p, in_chain d a -> rests_on a p ->
  rank (d_can d) <= rank (d_can p) /\ d_issuer a = d_delegate p.
Definition good_delegation (d : dlg) : Prop := good_chain d.
(** A revocation is by the group's key, or on the authority of the revoked delegation or one that it
    rests on. *)
Definition good_revocation (r : rev) : Prop :=
  match r_proof r with
  | None => r_issuer r = r_subject r
  | Some p => in_chain (r_revoke r) p /\ good_chain p
  end.

(** The digests that the parts of an operation go by. *)
Definition dlg_of (x : sdlg) (p : option dlg) (rs : list rev) : dlg :=
  Dlg (sd_sig x) (sd_issuer x) (sd_delegate x) (sd_can x) p rs (sd_content x).
Definition rev_of (x : srev) (t : dlg) (p : option dlg) : rev := Rev (sr_sig x) (sr_issuer x) t p (sr_content x).

Section supported.
Context {cop : Type} (W : sevent cop -> Prop).
(** An operation made of events in [W]: all it refers to is in [W] as well. *)
Inductive from_events : mop -> Prop :=
| from_dlg x p rs : W (EDlg x) -> d_sig <$> p = sd_proof x -> r_sig <$> rs = sd_after x ->
    (forall q, p = Some q -> from_events (MD q)) -> (forall r, r ∈ rs -> from_events (MR r)) -> from_events (MD (dlg_of x p rs))
| from_rev x t p : W (ERev x) -> d_sig t = sr_revoke x -> d_sig <$> p = sr_proof x ->
    from_events (MD t) -> (forall q, p = Some q -> from_events (MD q)) -> from_events (MR (rev_of x t p)).

(** The operations that are to be taken when the agents in [K] are known from the start: properly
    signed, valid, about a known agent, and referring to operations that are to be taken. *)
Context (K : ident -> Prop).
Inductive supported : mop -> Prop :=
| sup_dlg x p rs : W (EDlg x) -> sd_ok x = true -> d_sig <$> p = sd_proof x -> r_sig <$> rs = sd_after x ->
    (forall q, p = Some q -> supported (MD q)) -> (forall r, r ∈ rs -> supported (MR r)) ->
    reachable (sd_delegate x) -> good_delegation (dlg_of x p rs) -> supported (MD (dlg_of x p rs))
| sup_rev x t p : W (ERev x) -> sr_ok x = true -> d_sig t = sr_revoke x -> d_sig <$> p = sr_proof x ->
    supported (MD t) -> (forall q, p = Some q -> supported (MD q)) ->
    good_revocation (rev_of x t p) -> supported (MR (rev_of x t p))
with reachable : ident -> Prop :=
| reach_known i : K i -> reachable i
| reach_key o : W (EKey o) -> reachable (ko_issuer o)
| reach_group d : supported (MD d) -> reachable (d_subject d).
End supported.

(** Somebody delegates in the name of [i]. *)
Definition owner {cop} (W : sevent cop -> Prop) (i : ident) : Prop := exists d, from_events W (MD d) /\ d_subject d = i.

(** What is assumed of the events.  Digests identify events; no two delegations of a group make the same grant;
    the operations of a group refer to operations of that group only; no operation draws its
    authority from the membership in a team (a link signed by somebody other than the delegate
    above is allowed only where that delegate is no group, and is then rejected); nobody who is
    known as an individual delegates in their own name. *)
Record tame {cop} (W : sevent cop -> Prop) (K : ident -> Prop) : Prop := {
  tm_digests : forall x y s, W x -> W y -> ev_sig x = Some s -> ev_sig y = Some s -> x = y;
  tm_grants : forall i, distinct_grants (fun o => from_events W o /\ op_subject o = i);
  tm_after : forall d r, from_events W (MD d) -> r ∈ d_after d -> r_subject r = d_subject d;
  tm_proof : forall r p, from_events W (MR r) -> r_proof r = Some p -> d_subject p = r_subject r;
  tm_chain : forall d p, from_events W (MD d) -> rests_on d p -> d_issuer d = d_delegate p \/ ~ owner W (d_delegate p);
  tm_authority : forall r p, from_events W (MR r) -> r_proof r = Some p -> in_chain (r_revoke r) p \/ ~ owner W (d_delegate p);
  tm_people : forall i, owner W i -> ~ K i /\ forall o, W (EKey o) -> ko_issuer o <> i
}.
(** All delegations made with the key of a group agree on whether it is a document. *)
Definition same_kind {cop} (doc_content : nat -> ident -> bool) (W : sevent cop -> Prop) : Prop :=
  forall a b, from_events W (MD a) -> from_events W (MD b) -> d_proof a = None -> d_proof b = None -> d_subject a = d_subject b ->
    doc_content (d_content a) (d_subject a) = doc_content (d_content b) (d_subject b).

(** A client that has received nothing yet. *)
Definition blank {cg cop} (h : hive cg cop) : Prop :=
  h_groups h = ∅ /\ h_docs h = ∅ /\ h_dlgs h = ∅ /\ h_revs h = ∅ /\ h_pending h = [] /\ ks_docs (h_keys h) = ∅ /\ ks_groups (h_keys h) = ∅ /\
  is_Some (ks_indies (h_keys h) !! ks_public (h_keys h)).
(** The client has the operation. *)
Definition has_op {cg cop} (h : hive cg cop) (o : mop) : Prop :=
  match o with MD d => h_dlgs h !! d_sig d = Some d | MR r => h_revs h !! r_sig r = Some r end.
(** The client has the group (or document) [g]. *)
Definition has_group {cg cop} (h : hive cg cop) (i : ident) (g : group) : Prop := h_groups h !! i = Some g \/ h_docs h !! i = Some g.
(** A membership event. *)
Definition is_membership {cop} (x : sevent cop) : Prop := is_Some (ev_sig x).
(** The events in some batches. *)
Definition handed {cop} (batches : list (list (sevent cop))) (x : sevent cop) : Prop := exists b, b ∈ batches /\ x ∈ b.
