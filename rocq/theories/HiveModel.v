(** Model of the client: keyhive_core/src/keyhive.rs, receiving events.

    Wire events name what they refer to by digest.  As in GroupModel the digest of a signed
    operation and its signature are one number.  What an [Agent] pointer points to is found by
    looking its identifier up in the client.  The key agreement of documents is a parameter
    here: nothing in this file depends on it. *)
From Coq Require Import Arith.
From stdpp Require Import base list gmap.
From Verif Require Import AccessModel GroupModel PrekeyModel.

(** ** Events *)

(** delegation.rs [StaticDelegation] and revocation.rs [StaticRevocation] inside signed.rs
    [Signed]; [*_ok] is what [try_verify] (signed.rs 164-170) says of the signature. *)
Record sdlg := SDlg {
  sd_sig : sig; sd_issuer : ident; sd_delegate : ident; sd_can : access;
  sd_proof : option sig; sd_after : list sig; sd_content : nat; sd_ok : bool
}.
Record srev := SRev {
  sr_sig : sig; sr_issuer : ident; sr_revoke : sig; sr_proof : option sig; sr_content : nat; sr_ok : bool
}.
Global Instance sdlg_eq_dec : EqDecision sdlg.
Proof. solve_decision. Defined.
Global Instance srev_eq_dec : EqDecision srev.
Proof. solve_decision. Defined.

(** keyhive.rs 2629-2800, error.rs: the reasons for not taking an event.  [HCgka] stands for all
    errors of the key agreement. *)
Inductive herror := HBadSignature | HMissingDelegation (s : sig) | HUnknownAgent (i : ident) | HMissingRevocation (s : sig)
  | HAdd (e : gerror) | HPrekey (e : kerror) | HCgka | HUnknownDocument.
(** Besides returning [Ok] or an error a call can wait for a lock it holds itself, or panic. *)
Inductive houtcome := HDone | HFail (e : herror) | HHang | HPanic.

Section hive.
Context (order : gset nat -> list nat).
(** [doc_content c i]: the [after_content] map number [c] has a non-empty entry for document [i]. *)
Context (doc_content : nat -> ident -> bool).
(** The key agreement of all documents of the client, its operations, the document an operation is
    for, and what receiving one does (keyhive.rs 1796-1831 with the prekey secrets, document.rs
    378-441); [false] stands for an error. *)
Context {cg cop : Type} `{EqDecision cop} (cop_doc : cop -> ident) (cop_ok : cop -> bool) (cg_receive : kstore -> cg -> cop -> cg * bool).

(** event/static_event.rs [StaticEvent]; the two prekey variants are one [keyop]. *)
Inductive sevent := EKey (o : keyop) | ECgka (c : cop) | EDlg (d : sdlg) | ERev (r : srev).
Global Instance sevent_eq_dec : EqDecision sevent.
Proof. solve_decision. Defined.

(** keyhive.rs 84-132 [Keyhive]: the prekey part of PrekeyModel (which also says what is known as
    individual, group and document), the groups, the group of each document, the stores of
    delegations and revocations, the key agreement, and the pending events. *)
Record hive := Hive {
  h_keys : kstore;
  h_groups : gmap ident group;
  h_docs : gmap ident group;
  h_dlgs : gmap sig dlg;
  h_revs : gmap sig rev;
  h_cg : cg;
  h_pending : list sevent
}.

(** keyhive.rs 1394-1424 [get_agent]: is there an agent with this identifier? *)
Definition known_agent (h : hive) (i : ident) : bool :=
  (i =? ks_active (h_keys h)) || bool_decide (is_Some (h_docs h !! i)) || bool_decide (is_Some (h_groups h !! i)) ||
  bool_decide (is_Some (ks_indies (h_keys h) !! i)).
(** The members of every group and document, as seen through [Agent] pointers. *)
Definition h_env (h : hive) : gmap ident (gmap ident (list dlg)) := gr_members <$> (h_docs h ∪ h_groups h).

(** keyhive.rs 1457-1500 [static_delegation_to_delegation]. *)
Fixpoint find_revs (revs : gmap sig rev) (l : list sig) : sig + list rev :=
  match l with
  | [] => inr []
  | s :: l =>
      match revs !! s with
      | None => inl s
      | Some r => match find_revs revs l with inl s => inl s | inr rs => inr (r :: rs) end
      end
  end.
Definition find_proof_dlg (dlgs : gmap sig dlg) (p : option sig) : sig + option dlg :=
  match p with
  | None => inr None
  | Some s => match dlgs !! s with Some d => inr (Some d) | None => inl s end
  end.
Definition resolve_dlg (h : hive) (x : sdlg) : herror + dlg :=
  match find_proof_dlg (h_dlgs h) (sd_proof x) with
  | inl s => inl (HMissingDelegation s)
  | inr p =>
      if negb (known_agent h (sd_delegate x)) then inl (HUnknownAgent (sd_delegate x))
      else match find_revs (h_revs h) (sd_after x) with
           | inl s => inl (HMissingRevocation s)
           | inr rs => inr (Dlg (sd_sig x) (sd_issuer x) (sd_delegate x) (sd_can x) p rs (sd_content x))
           end
  end.
(** keyhive.rs 1503-1534 [static_revocation_to_revocation]. *)
Definition resolve_rev (h : hive) (x : srev) : herror + rev :=
  match h_dlgs h !! sr_revoke x with
  | None => inl (HMissingDelegation (sr_revoke x))
  | Some t =>
      match find_proof_dlg (h_dlgs h) (sr_proof x) with
      | inl s => inl (HMissingDelegation s)
      | inr p => inr (Rev (sr_sig x) (sr_issuer x) t p (sr_content x))
      end
  end.

(** ** Locks

    keyhive.rs 1624-1636 and 1704-1714 hold the lock of the group while state.rs 142-264 asks
    [is_transitive_member_of] about the delegate of a proof; group.rs [transitive_members] locks
    every group on the way.  If the group itself is among them the call waits for ever. *)
Definition locks_group (e : gmap ident (gmap ident (list dlg))) (gid delegate : ident) : bool :=
  match e !! delegate with
  | None => false
  | Some mems =>
      (delegate =? gid) ||
      match transitive_members order e delegate mems with
      | Some caps => bool_decide (is_Some (caps !! gid))
      | None => false
      end
  end.
Fixpoint chain_hangs (e : gmap ident (gmap ident (list dlg))) (gid : ident) (can : access) (head : dlg) (lin : list dlg) : bool :=
  match lin with
  | [] => false
  | p :: rest =>
      if negb (ale can (d_can p)) then false
      else if d_issuer head =? d_delegate p then chain_hangs e gid can p rest
      else if locks_group e gid (d_delegate p) then true
      else if negb (is_transitive_member_of order e (d_delegate p) (d_issuer head) can) then false
      else chain_hangs e gid can p rest
  end.
Definition delegation_hangs (e : gmap ident (gmap ident (list dlg))) (g : group) (d : dlg) : bool :=
  (d_subject d =? gr_id g) && chain_hangs e (gr_id g) (d_can d) d (lineage d).
Definition revocation_hangs (e : gmap ident (gmap ident (list dlg))) (g : group) (r : rev) : bool :=
  (r_subject r =? gr_id g) &&
  match r_proof r with
  | None => false
  | Some p =>
      if dlg_eqb (r_revoke r) p || is_descendant_of (r_revoke r) p then chain_hangs e (gr_id g) (d_can p) p (lineage p)
      else if locks_group e (gr_id g) (d_delegate p) then true
      else if is_transitive_member_of order e (d_delegate p) (r_issuer r) (d_can (r_revoke r)) then chain_hangs e (gr_id g) (d_can p) p (lineage p)
      else false
  end.

(** ** Receiving *)

Definition put_group (h : hive) (i : ident) (g : group) : hive :=
  Hive (h_keys h) (<[i := g]> (h_groups h)) (h_docs h) (h_dlgs h) (h_revs h) (h_cg h) (h_pending h).
Definition put_doc (h : hive) (i : ident) (g : group) : hive :=
  Hive (h_keys h) (h_groups h) (<[i := g]> (h_docs h)) (h_dlgs h) (h_revs h) (h_cg h) (h_pending h).
Definition put_dlg (h : hive) (d : dlg) : hive :=
  Hive (h_keys h) (h_groups h) (h_docs h) (<[d_sig d := d]> (h_dlgs h)) (h_revs h) (h_cg h) (h_pending h).
Definition put_rev (h : hive) (r : rev) : hive :=
  Hive (h_keys h) (h_groups h) (h_docs h) (h_dlgs h) (<[r_sig r := r]> (h_revs h)) (h_cg h) (h_pending h).
Definition put_keys (h : hive) (k : kstore) : hive :=
  Hive k (h_groups h) (h_docs h) (h_dlgs h) (h_revs h) (h_cg h) (h_pending h).
Definition put_cg (h : hive) (c : cg) : hive :=
  Hive (h_keys h) (h_groups h) (h_docs h) (h_dlgs h) (h_revs h) c (h_pending h).
Definition put_pending (h : hive) (l : list sevent) : hive :=
  Hive (h_keys h) (h_groups h) (h_docs h) (h_dlgs h) (h_revs h) (h_cg h) l.
Definition drop_individual (h : hive) (i : ident) : hive :=
  let k := h_keys h in put_keys h (KStore (ks_active k) (ks_public k) (delete i (ks_indies k)) (ks_docs k) (ks_groups k)).
(** A new group or document that has no individual behind it yet. *)
Definition new_document (h : hive) (i : ident) (g : group) : hive :=
  let k := h_keys h in put_doc (put_keys h (KStore (ks_active k) (ks_public k) (ks_indies k) (<[i := None]> (ks_docs k)) (ks_groups k))) i g.
Definition new_plain_group (h : hive) (i : ident) (g : group) : hive :=
  let k := h_keys h in put_group (put_keys h (KStore (ks_active k) (ks_public k) (ks_indies k) (ks_docs k) (<[i := None]> (ks_groups k)))) i g.

(** keyhive.rs 1873-1899, inside [promote_individual_to_group]: a known revocation of this group
    without proof makes it panic.  What it puts into the stores is equal to what is there. *)
Definition promotion_panics (h : hive) (gid : ident) : bool :=
  existsb (fun x => (r_subject x.2 =? gid) && match r_proof x.2 with None => true | Some _ => false end) (map_to_list (h_revs h)).

(** keyhive.rs 1589-1679 [receive_delegation].  [Group::new] (group.rs 92-130, state.rs 47-89) puts
    the delegation into the store, and again what was looked up there.  [Document::from_group]
    (document.rs 86-99) rebuilds the group a second time with the same result.  The group made from
    an individual is dropped (1637-1646). *)
Definition receive_dlg (h : hive) (x : sdlg) : hive * houtcome :=
  if bool_decide (is_Some (h_dlgs h !! sd_sig x)) then (h, HDone)
  else if negb (sd_ok x) then (h, HFail HBadSignature)
  else match resolve_dlg h x with
  | inl er => (h, HFail er)
  | inr d =>
      let i := d_subject d in
      match h_groups h !! i with
      | Some g =>
          if delegation_hangs (h_env h) g d then (h, HHang)
          else match receive_delegation order (h_env h) g d with
               | GErr er => (h, HFail (HAdd er))
               | GOk g => (put_dlg (put_group h i g) d, HDone)
               end
      | None =>
          match h_docs h !! i with
          | Some g =>
              if delegation_hangs (h_env h) g d then (h, HHang)
              else match receive_delegation order (h_env h) g d with
                   | GErr er => (h, HFail (HAdd er))
                   | GOk g => (put_dlg (put_doc h i g) d, HDone)
                   end
          | None =>
              match ks_indies (h_keys h) !! i with
              | Some _ =>
                  let h := put_dlg (drop_individual h i) d in
                  if promotion_panics h (d_issuer d) then (h, HPanic) else (h, HDone)
              | None =>
                  match new_group order d with
                  | None => (h, HFail (HAdd GFuel))
                  | Some g =>
                      let h := put_dlg h d in
                      (if doc_content (sd_content x) i then new_document h (gr_id g) g else new_plain_group h (gr_id g) g, HDone)
                  end
              end
          end
      end
  end.

(** keyhive.rs 1682-1745 [receive_revocation].  When the subject is unknown, line 1739 asks for the
    lock on the groups that line 1704 still holds (the guard of an [if let] lives until the end of
    the whole [if let ... else], Rust edition 2021). *)
Definition receive_rev (h : hive) (x : srev) : hive * houtcome :=
  if bool_decide (is_Some (h_revs h !! sr_sig x)) then (h, HDone)
  else if negb (sr_ok x) then (h, HFail HBadSignature)
  else match resolve_rev h x with
  | inl er => (h, HFail er)
  | inr r =>
      let i := r_subject r in
      match h_groups h !! i with
      | Some g =>
          if revocation_hangs (h_env h) g r then (h, HHang)
          else match receive_revocation order (h_env h) g r with
               | GErr er => (h, HFail (HAdd er))
               | GOk g => (put_rev (put_group h i g) r, HDone)
               end
      | None =>
          match h_docs h !! i with
          | Some g =>
              if revocation_hangs (h_env h) g r then (h, HHang)
              else match receive_revocation order (h_env h) g r with
                   | GErr er => (h, HFail (HAdd er))
                   | GOk g => (put_rev (put_doc h i g) r, HDone)
                   end
          | None =>
              match ks_indies (h_keys h) !! i with
              | Some _ =>
                  let h := drop_individual h i in
                  if promotion_panics h (d_issuer (r_revoke r)) then (h, HPanic)
                  else match new_group order (r_revoke r) with
                       | None => (h, HFail (HAdd GFuel))
                       | Some g =>
                           if revocation_hangs (h_env h) g r then (h, HHang)
                           else match receive_revocation order (h_env h) g r with
                                | GErr er => (h, HFail (HAdd er))
                                | GOk _ => (put_rev h r, HDone)
                                end
                       end
              | None => (h, HHang)
              end
          end
      end
  end.

(** keyhive.rs 1781-1832 [receive_cgka_op]. *)
Definition receive_cgka (h : hive) (c : cop) : hive * houtcome :=
  if negb (cop_ok c) then (h, HFail HBadSignature)
  else match h_docs h !! cop_doc c with
  | None => (h, HFail HUnknownDocument)
  | Some _ => let '(x, ok) := cg_receive (h_keys h) (h_cg h) c in (put_cg h x, if ok then HDone else HFail HCgka)
  end.

(** keyhive.rs 1537-1586 [receive_prekey_op], in PrekeyModel. *)
Definition receive_key_event (h : hive) (o : keyop) : hive * houtcome :=
  let '(k, e) := PrekeyModel.receive_prekey_op (h_keys h) o in
  (put_keys h k, match e with None => HDone | Some e => HFail (HPrekey e) end).

(** keyhive.rs 1748-1766 [receive_static_event]. *)
Definition receive_event (h : hive) (x : sevent) : hive * houtcome :=
  match x with
  | EKey o => receive_key_event h o
  | ECgka c => receive_cgka h c
  | EDlg d => receive_dlg h d
  | ERev r => receive_rev h r
  end.

(** ** Ingesting a batch *)

(** keyhive.rs 2325-2334: one pass; [None] when a call hangs or panics (the client is then stuck). *)
Fixpoint ingest_pass (h : hive) (epoch : list sevent) : option (hive * list sevent) :=
  match epoch with
  | [] => Some (h, [])
  | x :: epoch =>
      match receive_event h x with
      | (h, HDone) | (h, HFail (HPrekey _)) => ingest_pass h epoch
      | (h, HFail _) => match ingest_pass h epoch with Some (h, next) => Some (h, x :: next) | None => None end
      | (_, HHang) | (_, HPanic) => None
      end
  end.
(** keyhive.rs 2320-2362: passes until nothing is left or nothing was taken.  Every pass but the last
    makes the list shorter, so its length is fuel enough. *)
Fixpoint ingest_loop (fuel : nat) (h : hive) (replayed epoch : list sevent) : option (hive * list sevent) :=
  match ingest_pass h epoch with
  | None => None
  | Some (h, []) => Some (put_pending h (filter (fun e => e ∉ replayed) (h_pending h)), [])
  | Some (h, next) =>
      if length next =? length epoch then Some (put_pending h next, next)
      else match fuel with 0 => None | S f => ingest_loop f h replayed next end
  end.
(** keyhive.rs 2299-2363 [ingest_unsorted_static_events].  [seen] is what line 2308 read as the pending
    events, [shuffle] the order in which the hash map of line 2318 yields the events. *)
Definition ingest_from (seen : list sevent) (shuffle : list sevent -> list sevent) (h : hive) (events : list sevent) : option (hive * list sevent) :=
  let epoch := shuffle (remove_dups (events ++ seen)) in
  ingest_loop (length epoch) h seen epoch.
(** The same when no other task runs in between. *)
Definition ingest (shuffle : list sevent -> list sevent) (h : hive) (events : list sevent) : option (hive * list sevent) :=
  ingest_from (h_pending h) shuffle h events.
(** Several batches, one after the other. *)
Fixpoint ingest_all (shuffle : list sevent -> list sevent) (h : hive) (batches : list (list sevent)) : option hive :=
  match batches with
  | [] => Some h
  | b :: batches => match ingest shuffle h b with Some (h, _) => ingest_all shuffle h batches | None => None end
  end.
End hive.
Arguments sevent cop : clear implicits.
Arguments hive cg cop : clear implicits.
