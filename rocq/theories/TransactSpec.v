(** Specification of transactions on a client. *)
From stdpp Require Import base list gmap.
From Verif Require Import ResModel KeysModel TreeModel OpsModel CgkaModel.
From Verif Require Import AccessModel GroupModel PrekeyModel HiveModel HiveSpec SyncModel ArchiveModel ArchiveSpec DocModel TransactModel.

(** The body of a transaction on [h] makes the calls [cs]: the fork becomes [f], and its listener is told [log]. *)
Definition forked order horder rorder pick doc_content (h : client) (cs : list call) (f : client) (log : list (sevent dop)) : Prop :=
  exists f0, fork_client order h = ADone f0 /\ run_calls order horder rorder pick doc_content f0 cs = Some (f, log).

(** The signatures of membership operations that a call draws, and the new identities it makes. *)
Definition drawn (c : call) : list sig :=
  match c with TGroup _ ps _ | TDoc _ ps _ _ _ _ _ _ => ps.*2 | TAdd _ _ _ _ s _ => [s] | TRevoke _ _ _ _ sigs _ => sigs | _ => [] end.
Definition named (c : call) : list ident := match c with TGroup i _ _ | TDoc i _ _ _ _ _ _ _ => [i] | _ => [] end.
(** Calls other than receiving.  Groups and documents start with somebody; the content that
    the delegations of a new document carry says that it is a document. *)
Definition own_call (doc_content : nat -> ident -> bool) (c : call) : Prop :=
  match c with
  | TGroup i ps content => ps <> [] /\ doc_content content i = false
  | TDoc i ps content _ _ _ _ _ => ps <> [] /\ doc_content content i = true
  | TReceive _ => False
  | _ => True
  end.
(** What is drawn in the body is new to the client and drawn once. *)
Record fresh_draws (h : client) (sigs : list sig) (ids : list ident) : Prop := {
  fd_sigs : NoDup sigs;
  fd_ids : NoDup ids;
  fd_new_sig : forall s, s ∈ sigs -> h_dlgs h !! s = None /\ h_revs h !! s = None;
  fd_new_id : forall i, i ∈ ids -> h_groups h !! i = None /\ h_docs h !! i = None /\ ks_indies (h_keys h) !! i = None
}.
(** Who is given access. *)
Definition invited (c : call) : list ident :=
  match c with TGroup _ ps _ | TDoc _ ps _ _ _ _ _ _ => ps.*1 | TAdd _ who _ _ _ _ => [who] | _ => [] end.
Definition carded (c : call) : list ident := match c with TCard o => [ko_issuer o] | _ => [] end.
Definition fresh_body (h : client) (cs : list call) : Prop :=
  fresh_draws h (concat (map drawn cs)) (concat (map named cs)) /\ forall i, i ∈ concat (map named cs) -> i ∉ concat (map carded cs).

(** Two clients have the same groups and documents with the same members, up to active revocations,
    and the same delegations and revocations. *)
Definition same_groups (h f : client) : Prop :=
  h_dlgs h = h_dlgs f /\ h_revs h = h_revs f /\
  forget_group <$> h_groups h = forget_group <$> h_groups f /\ forget_group <$> h_docs h = forget_group <$> h_docs f.
(** The individuals of [f] are in [h], with all prekey operations, and so are the secrets. *)
Definition keeps_keys (h f : client) : Prop :=
  (forall i x, ks_indies (h_keys f) !! i = Some x -> exists y, ks_indies (h_keys h) !! i = Some y /\ in_ops x ⊆ in_ops y) /\
  (forall k s, cs_pairs (h_cg f) !! k = Some s -> cs_pairs (h_cg h) !! k = Some s).
(** Groups and documents go by their own identifiers. *)
Definition filed_right (h : client) : Prop := forall i g, has_group h i g -> gr_id g = i.
(** Everybody who is given access is known by then: before the body, or by a call of the body. *)
Fixpoint registered (K : ident -> Prop) (cs : list call) : Prop :=
  match cs with
  | [] => True
  | c :: cs => (forall i, i ∈ invited c -> K i) /\ registered (fun i => K i \/ i ∈ named c \/ i ∈ carded c) cs
  end.
