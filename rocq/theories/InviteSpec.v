(** Teams whose clients invite each other with prekeys they were told of. *)
From stdpp Require Import base list gmap.
From Verif Require Import ResModel KeysModel TreeModel OpsModel CgkaModel NetSpec.
From Verif Require Import AccessModel GroupModel PrekeyModel HiveModel DocModel TransactModel TeamSpec ArriveSpec.

(** What a client has on record about an individual: their prekeys, and the operations these come from. *)
Definition prekeys_of (h : client) (i : ident) : gset share_key := match ks_indies (h_keys h) !! i with Some x => in_prekeys x | None => ∅ end.
Definition keyops_of (h : client) (i : ident) : gset keyop := match ks_indies (h_keys h) !! i with Some x => in_ops x | None => ∅ end.
(** A client picks a prekey among those it has on record. *)
Definition picks (pick : nat -> client -> ident -> ident -> share_key) : Prop :=
  forall r h i d, prekeys_of h i <> ∅ -> pick r h i d ∈ prekeys_of h i.
(** The person an operation on prekeys is about made it: their own clients have it on record. *)
Definition authentic (t : team) (o : keyop) : Prop :=
  forall r g, tm_clients t !! r = Some g -> me g = ko_issuer o -> o ∈ keyops_of g (me g).
(** The person uses no other client. *)
Definition alone (t : team) (r : nat) (h : client) : Prop := forall r' g, tm_clients t !! r' = Some g -> me g = me h -> r' = r.

Section careful.
Context (order : nat -> gset nat -> list nat) (ho : nat -> gset digest -> list digest) (ro : nat -> gset (member_id * nat) -> list (member_id * nat)).
Context (pick : nat -> client -> ident -> ident -> share_key) (doc_content : nat -> ident -> bool).

(** Clients receive events and contact cards, make prekeys, and do everything else that clients of a team do.  The
    operations on prekeys that they are handed were made by those they are about.  Of somebody in the team whom a call
    invites to the key of a document the caller has a prekey; documents are not persons. *)
Inductive careful_step (t : team) : team -> Prop :=
| cf_receive r h x h' y : tm_clients t !! r = Some h -> genuine t h x -> (forall o, x = EKey o -> authentic t o) ->
    receive_event (order r) doc_content do_doc do_ok (doc_receive (ho r) (ro r)) h x = (h', y) -> careful_step t (went t r h')
| cf_card r h o : tm_clients t !! r = Some h -> authentic t o -> careful_step t (went t r (put_keys h (receive_contact_card (h_keys h) o).1))
| cf_expand r h sk h' o : tm_clients t !! r = Some h -> alone t r h -> make_prekey h active_expand sk = Some (h', o) -> careful_step t (went t r h')
| cf_rotate r h old sk h' o : tm_clients t !! r = Some h -> alone t r h ->
    make_prekey h (fun a k => active_rotate a old k) sk = Some (h', o) -> careful_step t (went t r h')
| cf_call r h h' t' : tm_clients t !! r = Some h -> team_step order ho ro pick doc_content t t' -> tm_clients t' = <[r := h']> (tm_clients t) ->
    ks_indies (h_keys h') = ks_indies (h_keys h) ->
    (forall d x o id pk i ps qs r' g, tm_ops t d !! x = None -> tm_ops t' d !! x = Some o -> so_op o = CAdd id pk i ps qs ->
       tm_clients t !! r' = Some g -> me g = id -> id <> d /\ prekeys_of h id <> ∅) -> careful_step t t'.

(** At first whatever clients have on record about each other's prekeys is true: it was made by them, and they have the secrets. *)
Inductive careful_reachable : team -> Prop :=
| cr_start t : team_reachable order ho ro pick doc_content t -> (forall d, tm_ops t d = ∅) ->
    (forall r h r' g o, tm_clients t !! r = Some h -> tm_clients t !! r' = Some g -> o ∈ keyops_of h (me g) -> is_Some (cs_pairs (h_cg g) !! new_key o)) ->
    (forall r h i k, tm_clients t !! r = Some h -> k ∈ prekeys_of h i -> exists o, o ∈ keyops_of h i /\ new_key o = k) ->
    (forall r h, tm_clients t !! r = Some h -> forall i x, ks_indies (h_keys h) !! i = Some x -> in_id x = i) -> careful_reachable t
| cr_step t t' : careful_reachable t -> careful_step t t' -> careful_reachable t'.
End careful.
