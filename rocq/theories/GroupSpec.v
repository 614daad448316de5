(** Specification of groups: what the operations of a group are, and which histories lead to a
    group state. *)
From stdpp Require Import base list gmap relations sorting.
From Verif Require Import AccessModel GroupModel CgkaSpec.

(** [p] is a direct dependency of [o]. *)
Definition depends_on (o p : mop) : Prop := p ∈ parents o.
(** The heads of a group, and the operations that hang below them. *)
Definition is_head (g : group) (o : mop) : Prop :=
  match o with MD d => gr_dheads g !! d_sig d = Some d | MR r => gr_rheads g !! r_sig r = Some r end.
Definition known (g : group) (o : mop) : Prop := exists h, is_head g h /\ rtc depends_on h o.
(** Signatures identify operations. *)
Definition genuine (P : mop -> Prop) : Prop := forall a b, P a -> P b -> op_sig a = op_sig b -> a = b.
(** No delegation is revoked by two revocations. *)
Definition revoked_once (P : mop -> Prop) : Prop :=
  forall r r', P (MR r) -> P (MR r') -> d_sig (r_revoke r) = d_sig (r_revoke r') -> r = r'.
(** The operations can be put in an order in which everything comes after what it depends on, and
    every delegation comes after the revocations of the delegation it rests on. *)
Definition orderable (P : mop -> Prop) : Prop :=
  exists f : mop -> nat,
    (forall o p, P o -> depends_on o p -> f p < f o) /\
    (forall d p r, P (MD d) -> P (MR r) -> d_proof d = Some p -> d_sig (r_revoke r) = d_sig p -> f (MR r) < f (MD d)).
(** Every revocation has the group itself, the revoked delegation or a delegation that one rests on
    as its authority. *)
Definition revoked_from_above (P : mop -> Prop) : Prop :=
  forall r p, P (MR r) -> r_proof r = Some p -> p ∈ r_revoke r :: lineage (r_revoke r).
(** Heads are filed under their signatures. *)
Definition filed (g : group) : Prop :=
  (forall s d, gr_dheads g !! s = Some d -> d_sig d = s) /\ (forall s r, gr_rheads g !! s = Some r -> r_sig r = s).
(** [d] is one of the delegations that make its delegate a member of [g]. *)
Definition holds (g : group) (d : dlg) : Prop := exists l, gr_members g !! d_delegate d = Some l /\ d ∈ l.
(** No known revocation hits [d] or a delegation it rests on. *)
Definition untouched (P : mop -> Prop) (d : dlg) : Prop :=
  forall t r, t ∈ d :: lineage d -> P (MR r) -> d_sig (r_revoke r) <> d_sig t.
(** No two delegations say the same thing (who gets what on which grounds). *)
Definition distinct_grants (P : mop -> Prop) : Prop := forall a b, P (MD a) -> P (MD b) ->
  d_delegate a = d_delegate b -> d_can a = d_can b -> d_proof a = d_proof b -> d_after a = d_after b -> d_content a = d_content b -> a = b.

(** The history of a group at one replica: it starts with the delegations signed by the group's own
    key and grows by operations that are accepted; the client looks up what an operation refers to
    among the operations it already accepted.  [e] is the state of all other groups, which may be
    anything. *)
Inductive history (order : gset nat -> list nat) : list mop -> group -> Prop :=
| h_generate id parents content g : parents <> [] -> NoDup parents.*2 -> generate_group order id parents content = Some g ->
    history order (map (fun x => MD (Dlg x.2 id x.1 Admin None [] content)) parents) g
| h_new d g : d_proof d = None -> d_after d = [] -> new_group order d = Some g -> history order [MD d] g
| h_delegation e ops g d g' : history order ops g -> (forall p, p ∈ parents (MD d) -> p ∈ ops) ->
    receive_delegation order e g d = GOk g' -> history order (MD d :: ops) g'
| h_revocation e ops g r g' : history order ops g -> (forall p, p ∈ parents (MR r) -> p ∈ ops) ->
    receive_revocation order e g r = GOk g' -> history order (MR r :: ops) g'.

(** Who belongs to a group, directly or through groups in it. *)
Definition direct (e : gmap ident (gmap ident (list dlg))) (g i : ident) : Prop := exists mems, e !! g = Some mems /\ is_Some (mems !! i).
Definition belongs (e : gmap ident (gmap ident (list dlg))) : ident -> ident -> Prop := tc (direct e).
(** Members are filed under their identifiers with at least one delegation, and signatures identify
    delegations. *)
Definition sane (e : gmap ident (gmap ident (list dlg))) : Prop :=
  (forall g mems i l, e !! g = Some mems -> mems !! i = Some l -> l <> [] /\ forall d, d ∈ l -> d_delegate d = i) /\
  (forall g mems i l d g' mems' i' l' d', e !! g = Some mems -> mems !! i = Some l -> d ∈ l ->
     e !! g' = Some mems' -> mems' !! i' = Some l' -> d' ∈ l' -> d_sig d = d_sig d' -> d = d').
(** [a] rests directly on [p]. *)
Definition rests_on (a p : dlg) : Prop := d_proof a = Some p.
(** [q] is [d] or a delegation that [d] rests on, directly or not. *)
Definition in_chain (d q : dlg) : Prop := rtc rests_on d q.
(** The access that [i] has in [g]: along one path of groups it is that of the weakest link. *)
Inductive grants (e : gmap ident (gmap ident (list dlg))) : ident -> ident -> access -> Prop :=
| grants_direct g mems i l d : e !! g = Some mems -> mems !! i = Some l -> d ∈ l -> grants e g i (d_can d)
| grants_through g m i a b : grants e g m a -> grants e m i b -> grants e g i (amin a b).
