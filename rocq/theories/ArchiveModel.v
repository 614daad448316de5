(** Model of storing a client and bringing it back: keyhive_core/src/keyhive.rs 1929-2293
    [into_archive], [try_from_archive], [ingest_archive], and the archives of groups, documents and
    the active agent.

    The bytes of an archive are not modelled: it is the value that is stored.  Of a document the
    content heads and [known_decryption_keys] (document.rs 75, never read) are left out. *)
From Coq Require Import Arith.
From stdpp Require Import base list gmap.
From Verif Require Import AccessModel GroupModel PrekeyModel HiveModel SyncModel.

Section archive.
Context (order : gset nat -> list nat).
(** See HiveModel. *)
Context (doc_content : nat -> ident -> bool).
Context {cg cop : Type} `{EqDecision cop} (cop_doc : cop -> ident) (cop_ok : cop -> bool) (cg_receive : kstore -> cg -> cop -> cg * bool).
Notation hive := (hive cg cop).

(** membership_operation.rs [StaticMembershipOperation]: delegations and revocations. *)
Notation sop := (sdlg + srev)%type.
(** delegation.rs 186-201, revocation.rs 101-110. *)
Definition stored_op (o : mop) : sop :=
  match o with
  | MD d => inl (SDlg (d_sig d) (d_issuer d) (d_delegate d) (d_can d) (d_sig <$> d_proof d) (r_sig <$> d_after d) (d_content d) true)
  | MR r => inr (SRev (r_sig r) (r_issuer r) (d_sig (r_revoke r)) (d_sig <$> r_proof r) (r_content r) true)
  end.
Definition event_of (x : sop) : sevent cop := match x with inl d => EDlg d | inr r => ERev r end.

(** group.rs 937-943 [GroupArchive], state/archive.rs [GroupStateArchive].  The individual behind a
    group is in the [kstore]. *)
Record garchive := GArchive {
  ga_id : ident;
  ga_dheads : gset sig;
  ga_rheads : gset sig;
  ga_members : gmap ident (list sig)
}.
(** archive.rs 18-29 [Archive] with active/archive.rs [ActiveArchive] and document/archive.rs
    [DocumentArchive].  [ar_keys]: the active agent, the individuals, and those behind groups and
    documents.  [ar_cg]: the prekey secrets and the key agreement of the documents. *)
Record archive := Archive {
  ar_keys : kstore;
  ar_ops : list sop;
  ar_groups : gmap ident garchive;
  ar_docs : gmap ident garchive;
  ar_cg : cg;
  ar_pending : list (sevent cop)
}.

(** ** Storing *)

(** group.rs 898-915 and state.rs 295-301 [into_archive]. *)
Definition archive_group (g : group) : garchive :=
  GArchive (gr_id g) (dom (gr_dheads g)) (dom (gr_rheads g)) (filter (fun x => x.2 <> []) (map d_sig <$> gr_members g)).
(** keyhive.rs 1929-1985 [into_archive]; [None] is out of fuel. *)
Definition into_archive (h : hive) : option archive :=
  match reverse_topsort order (h_dlgs h) (h_revs h) with
  | None => None
  | Some (l, all) =>
      Some (Archive (h_keys h) (map stored_op (omap (all !!.) (reverse l))) (archive_group <$> h_groups h) (archive_group <$> h_docs h)
              (h_cg h) (h_pending h))
  end.

(** ** Bringing back *)

(** keyhive.rs [TryFromArchiveError].  [MissingGroup], [MissingDocument] and [MissingIndividual] do
    not occur. *)
Inductive aerror := AMissingDelegation (s : sig) | AMissingRevocation (s : sig) | AMissingAgent (i : ident).

(** keyhive.rs 2059-2079: the agent a delegation is for. *)
Definition archived_agent (a : archive) (i : ident) : bool :=
  (i =? ks_active (ar_keys a)) || bool_decide (is_Some (ks_indies (ar_keys a) !! i)) || bool_decide (is_Some (ar_groups a !! i)) ||
  bool_decide (is_Some (ar_docs a !! i)).
(** keyhive.rs 2032-2118: one stored operation.  No signature is checked. *)
Definition load_op (a : archive) (ds : gmap sig dlg) (rs : gmap sig rev) (x : sop) : aerror + (gmap sig dlg * gmap sig rev) :=
  match x with
  | inl x =>
      match find_proof_dlg ds (sd_proof x) with
      | inl s => inl (AMissingDelegation s)
      | inr p =>
          match find_revs rs (sd_after x) with
          | inl s => inl (AMissingRevocation s)
          | inr after =>
              if archived_agent a (sd_delegate x)
              then inr (<[sd_sig x := Dlg (sd_sig x) (sd_issuer x) (sd_delegate x) (sd_can x) p after (sd_content x)]> ds, rs)
              else inl (AMissingAgent (sd_delegate x))
          end
      end
  | inr x =>
      match ds !! sr_revoke x with
      | None => inl (AMissingDelegation (sr_revoke x))
      | Some t =>
          match find_proof_dlg ds (sr_proof x) with
          | inl s => inl (AMissingDelegation s)
          | inr p => inr (ds, <[sr_sig x := Rev (sr_sig x) (sr_issuer x) t p (sr_content x)]> rs)
          end
      end
  end.
Fixpoint load_ops (a : archive) (ds : gmap sig dlg) (rs : gmap sig rev) (l : list sop) : aerror + (gmap sig dlg * gmap sig rev) :=
  match l with
  | [] => inr (ds, rs)
  | x :: l => match load_op a ds rs x with inl e => inl e | inr (ds, rs) => load_ops a ds rs l end
  end.
(** keyhive.rs 2136-2141, 2167-2173. *)
Fixpoint find_dlgs (ds : gmap sig dlg) (l : list sig) : sig + list dlg :=
  match l with
  | [] => inr []
  | s :: l =>
      match ds !! s with
      | None => inl s
      | Some d => match find_dlgs ds l with inl s => inl s | inr xs => inr (d :: xs) end
      end
  end.
(** keyhive.rs 2165-2180. *)
Fixpoint load_members (ds : gmap sig dlg) (l : list (ident * list sig)) : aerror + gmap ident (list dlg) :=
  match l with
  | [] => inr ∅
  | (i, ss) :: l =>
      match find_dlgs ds ss with
      | inl s => inl (AMissingDelegation s)
      | inr xs => match load_members ds l with inl e => inl e | inr m => inr (<[i := xs]> m) end
      end
  end.
(** The entries of a hash map in the order in which it yields them. *)
Definition keyed {A} (m : gmap nat A) : list (nat * A) := omap (fun i => pair i <$> m !! i) (order (dom m)).
(** keyhive.rs 2121-2183 [reify_ops] on the group that [dummy_from_archive] (group.rs 880-895) gives:
    it has no active revocations. *)
Definition load_group (ds : gmap sig dlg) (rs : gmap sig rev) (g : garchive) : aerror + group :=
  match find_dlgs ds (order (ga_dheads g)) with
  | inl s => inl (AMissingDelegation s)
  | inr dheads =>
      match find_revs rs (order (ga_rheads g)) with
      | inl s => inl (AMissingRevocation s)
      | inr rheads =>
          match load_members ds (keyed (ga_members g)) with
          | inl e => inl e
          | inr m =>
              let wrong_root d := match d_proof d with None => negb (d_issuer d =? ga_id g) | Some _ => false end in
              inr (Group (ga_id g) (list_to_map (map (fun d => (d_sig d, d)) (filter (fun d => wrong_root d = false) dheads)))
                     (list_to_map (map (fun r => (r_sig r, r)) rheads)) m ∅)
          end
      end
  end.
Fixpoint load_groups (ds : gmap sig dlg) (rs : gmap sig rev) (l : list (ident * garchive)) : aerror + gmap ident group :=
  match l with
  | [] => inr ∅
  | (i, g) :: l =>
      match load_group ds rs g with
      | inl e => inl e
      | inr g => match load_groups ds rs l with inl e => inl e | inr m => inr (<[i := g]> m) end
      end
  end.
(** keyhive.rs 1988-2247 [try_from_archive].  Line 2007 puts the individual of the active agent into
    the individuals: here it never was anywhere else (PrekeyModel [kstore]). *)
Definition try_from_archive (a : archive) : aerror + hive :=
  match load_ops a ∅ ∅ (ar_ops a) with
  | inl e => inl e
  | inr (ds, rs) =>
      match load_groups ds rs (keyed (ar_groups a)) with
      | inl e => inl e
      | inr groups =>
          match load_groups ds rs (keyed (ar_docs a)) with
          | inl e => inl e
          | inr docs => inr (Hive (ar_keys a) groups docs ds rs (ar_cg a) (ar_pending a))
          end
      end
  end.

(** ** Taking over an archive *)

(** keyhive.rs 2258-2281.  First the individual of the active agent takes in the one of the archive,
    whosever it is; then all individuals. *)
Definition merge_active (k l : kstore) : gmap ident individual :=
  match ks_indies k !! ks_active k, ks_indies l !! ks_active l with
  | Some x, Some y => <[ks_active k := merge_individual x y]> (ks_indies k)
  | _, _ => ks_indies k
  end.
Definition merge_keys (k l : kstore) : kstore :=
  KStore (ks_active k) (ks_public k) (union_with (fun x y => Some (merge_individual x y)) (merge_active k l) (ks_indies l)) (ks_docs k) (ks_groups k).
(** keyhive.rs 2251-2293 [ingest_archive]; [cg_pairs] (line 2261) adds the prekey secrets of the
    archive.  Pending events, groups and key agreements of the archive are not looked at. *)
Definition ingest_archive (cg_pairs : cg -> cg -> cg) (shuffle : list (sevent cop) -> list (sevent cop)) (h : hive) (a : archive) : option (hive * list (sevent cop)) :=
  let h := put_cg (put_keys h (merge_keys (h_keys h) (ar_keys a))) (cg_pairs (h_cg h) (ar_cg a)) in
  ingest order doc_content cop_doc cop_ok cg_receive shuffle h (map event_of (ar_ops a)).

End archive.
Arguments archive cg cop : clear implicits.
