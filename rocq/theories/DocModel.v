(** Model of keyhive_core/src/principal/document.rs and of the parts of keyhive.rs that change
    memberships: how memberships and the group keys of documents go together.

    The client is that of HiveModel with the key agreement of CgkaModel for every document. *)
From Coq Require Import Arith.
From stdpp Require Import base list gmap.
From Verif Require Import AccessModel GroupModel PrekeyModel HiveModel SyncModel.
From Verif Require Import ResModel KeysModel TreeModel OpsModel CgkaModel.

(** [Signed<CgkaOperation>]: the document of the operation (operation.rs 105-112 [doc_id]), the key
    that signed it, and what [try_verify] says of the signature. *)
Record dop := DOp { do_doc : ident; do_issuer : ident; do_ok : bool; do_op : signed_op }.
Global Instance version_eq_dec : EqDecision version.
Proof. assert (EqDecision enc_secret) by solve_decision. solve_decision. Defined.
Global Instance signed_op_eq_dec : EqDecision signed_op.
Proof. assert (EqDecision store) by (unfold store; solve_decision). assert (EqDecision path_change) by solve_decision. assert (EqDecision cgka_op) by solve_decision. solve_decision. Defined.
Global Instance dop_eq_dec : EqDecision dop.
Proof. solve_decision. Defined.

(** active.rs 47-71 [prekey_pairs] with the secrets, and document.rs 63-79 [Document::cgka]: a document
    without entry has none. *)
Record cgs := Cgs { cs_pairs : gmap share_key secret_key; cs_docs : gmap ident cgka }.
Notation client := (hive cgs dop).

(** Errors of the calls: group.rs [AddGroupMemberError], [RevokeMemberError], error.rs [CgkaError];
    [DLoop]: see [any_loop].  [DPanic] and [DFuel] as in ResModel. *)
Inductive derror := DGroup (e : gerror) | DCgka (e : cgka_error) | DUnknown | DLoop | DPanic | DFuel.
Inductive dres (A : Type) := DOk (a : A) | DErr (e : derror).
Arguments DOk {A} a. Arguments DErr {A} e.
Definition of_res {A} (x : res A) : dres A :=
  match x with Ok a => DOk a | Err e => DErr (DCgka e) | Panic => DErr DPanic | OutOfFuel => DErr DFuel end.
Definition dmap {A B} (f : A -> B) (x : dres A) : dres B := match x with DOk a => DOk (f a) | DErr e => DErr e end.

(** public.rs 46-52 [Public::share_secret_key]. *)
Definition public_secret : secret_key := 0.

Section doc.
Context (order : gset nat -> list nat).
Context (horder : gset digest -> list digest) (rorder : gset (member_id * nat) -> list (member_id * nat)).
(** individual.rs 119-127 [pick_prekey] of an individual for a document (in PrekeyModel). *)
Context (pick : ident -> ident -> share_key).

Definition cgka_of (h : client) (i : ident) : option cgka := cs_docs (h_cg h) !! i.
Definition put_cgka (h : client) (i : ident) (c : cgka) : client :=
  put_cg h (Cgs (cs_pairs (h_cg h)) (<[i := c]> (cs_docs (h_cg h)))).
Definition me (h : client) : ident := ks_active (h_keys h).
(** An operation of the group key of document [i], signed by the active agent. *)
Definition signed_by (h : client) (i : ident) (o : signed_op) : dop := DOp i (me h) true o.

(** ** Receiving operations of the key agreement *)

(** document.rs 379-402 [merge_cgka_op]. *)
Definition merge_cgka_op (c : option cgka) (op : signed_op) : option cgka * res bool :=
  match c with
  | Some c => let '(c, r) := merge_concurrent_operation horder rorder c op in (Some c, r)
  | None =>
      match so_op op with
      | CAdd id pk _ preds _ =>
          match preds with
          | [] => match cgka_from_init id pk op with
                  | Ok c => (Some c, Ok true)
                  | Err e => (None, Err e)
                  | Panic => (None, Panic)
                  | OutOfFuel => (None, OutOfFuel)
                  end
          | _ => (None, Err EOutOfOrderOperation)
          end
      | _ => (None, Err EUnexpectedInitialOperation)
      end
  end.
(** document.rs 406-434 [merge_cgka_invite_op]: the owner is changed before the operation is merged. *)
Definition merge_cgka_invite_op (c : option cgka) (op : signed_op) (sk : secret_key) : option cgka * res bool :=
  match so_op op with
  | CAdd id pk _ preds _ =>
      match c with
      | None => (None, Err ENotInitialized)
      | Some c =>
          if negb (contains_predecessors (c_graph c) (list_to_set preds)) then (Some c, Err EOutOfOrderOperation)
          else merge_cgka_op (Some (with_new_owner c id (<[pk := sk]> (c_sks c)))) op
      end
  | _ => (c, Err EUnexpectedInviteOperation)
  end.
(** document.rs 437-441 [reset_cgka_owner]. *)
Definition reset_cgka_owner (c : option cgka) (id : ident) : option cgka * res unit :=
  match c with
  | None => (None, Err ENotInitialized)
  | Some c => (Some (with_new_owner c id (c_sks c)), Ok ())
  end.

(** keyhive.rs 1796-1831, the part of [receive_cgka_op] after the signature and the document were
    checked ([receive_cgka] in HiveModel).  Nothing compares the issuer with the members. *)
Definition doc_receive (k : kstore) (x : cgs) (o : dop) : cgs * bool :=
  let put (c : option cgka) := match c with Some c => Cgs (cs_pairs x) (<[do_doc o := c]> (cs_docs x)) | None => x end in
  let c := cs_docs x !! do_doc o in
  let plain := match merge_cgka_op c (do_op o) with (c, r) => (put c, match r with Ok _ => true | _ => false end) end in
  match so_op (do_op o) with
  | CAdd id pk _ _ _ =>
      if id =? ks_active k then
        match cs_pairs x !! pk with
        | None => (x, false)
        | Some sk => match merge_cgka_invite_op c (do_op o) sk with (c, r) => (put c, match r with Ok _ => true | _ => false end) end
        end
      else if id =? ks_public k then
        match merge_cgka_invite_op c (do_op o) public_secret with
        | (c, Ok _) => match reset_cgka_owner c (ks_active k) with (c, r) => (put c, match r with Ok _ => true | _ => false end) end
        | (c, _) => (put c, false)
        end
      else plain
  | _ => plain
  end.
(** keyhive.rs 1781-1832 [receive_cgka_op]. *)
Definition receive_doc_op (h : client) (o : dop) : client * houtcome := receive_cgka do_doc do_ok doc_receive h o.

(** ** Adding members *)

(** agent.rs 122-171 [pick_individual_prekeys] for a document: every individual behind the agent, in
    the order of the hash map that is returned. *)
Definition pick_prekeys (h : client) (a doc : ident) : option (list (ident * share_key)) :=
  (fun s => map (fun i => (i, pick i doc)) (order s)) <$> individual_ids order (h_env h) a.
(** document.rs 275-289 [add_cgka_members_from_prekeys]; [hs] supplies the digests of the new
    operations.  What was done before an error stays. *)
Fixpoint add_keys (c : cgka) (l : list (ident * share_key)) (hs : list digest) : cgka * res (list signed_op) :=
  match l with
  | [] => (c, Ok [])
  | (i, pk) :: l =>
      match hs with
      | [] => (c, OutOfFuel)
      | x :: hs =>
          match cgka_add horder rorder c i pk x with
          | (c, Ok o) => match add_keys c l hs with (c, Ok ops) => (c, Ok (option_list o ++ ops)) | r => r end
          | (c, Err e) => (c, Err e)
          | (c, Panic) => (c, Panic)
          | (c, OutOfFuel) => (c, OutOfFuel)
          end
      end
  end.
Definition doc_add_keys (h : client) (i : ident) (l : list (ident * share_key)) (hs : list digest) : client * dres (list dop) :=
  match l with
  | [] => (h, DOk [])
  | _ =>
      match cgka_of h i with
      | None => (h, DErr (DCgka ENotInitialized))
      | Some c => match add_keys c l hs with (c, r) => (put_cgka h i c, dmap (map (signed_by h i)) (of_res r)) end
      end
  end.
(** keyhive.rs 506-537: the new members of group [gid] get the keys of every document that the group
    belongs to, whatever its access there.  [hs] supplies digests for each document. *)
Fixpoint add_to_docs (h : client) (gid who : ident) (docs : list ident) (hs : ident -> list digest) : client * dres (list dop) :=
  match docs with
  | [] => (h, DOk [])
  | j :: docs =>
      match h_docs h !! j with
      | None => add_to_docs h gid who docs hs
      | Some g =>
          if negb (reaches order h gid g) then add_to_docs h gid who docs hs
          else match pick_prekeys h who j with
               | None => (h, DErr DFuel)
               | Some l =>
                   match doc_add_keys h j l (hs j) with
                   | (h, DOk ops) => match add_to_docs h gid who docs hs with (h, DOk ops') => (h, DOk (ops ++ ops')) | r => r end
                   | (h, DErr e) => (h, DErr e)
                   end
               end
      end
  end.

(** The group or document belongs to itself. *)
Definition loops (h : client) (i : ident) : bool :=
  match h_env h !! i with
  | None => false
  | Some mems => existsb (locks_group order (h_env h) i) (elements (dom mems))
  end.
(** Some group or document belongs to itself: calls may then wait for a lock that they hold, or not;
    this case is not modelled. *)
Definition any_loop (h : client) : bool := existsb (loops h) (elements (dom (h_env h))).
(** A delegation made locally is put into its group and the store (state.rs 112-134). *)
Definition put_made (h : client) (ds : list dlg) (rs : list rev) : client := foldl put_rev (foldl put_dlg h ds) rs.

(** keyhive.rs 482-552 [add_member] by the active agent, group.rs 445-468, document.rs 225-269.  The
    documents that the caller names only enter the [content] of the delegation. *)
Definition hive_add_member (h : client) (i who : ident) (can : access) (content : nat) (s : sig) (hs : ident -> list digest) :
    client * dres (dlg * list dop) :=
  if any_loop h then (h, DErr DLoop)
  else match h_groups h !! i with
  | Some g =>
      match add_member order (h_env h) g who can (me h) content s with
      | GErr e => (h, DErr (DGroup e))
      | GOk (g', d) =>
          let hangs := delegation_hangs order (h_env h) g d in
          let h := put_made (put_group h i g') [d] [] in
          if hangs || any_loop h then (h, DErr DLoop)
          else if is_reader can then
            match add_to_docs h i who (order (dom (h_docs h))) hs with
            | (h, DOk ops) => (h, DOk (d, ops))
            | (h, DErr e) => (h, DErr e)
            end
          else (h, DOk (d, []))
      end
  | None =>
      match h_docs h !! i with
      | None => (h, DErr DUnknown)
      | Some g =>
          match add_member order (h_env h) g who can (me h) content s with
          | GErr e => (h, DErr (DGroup e))
          | GOk (g', d) =>
              let hangs := delegation_hangs order (h_env h) g d in
              let h := put_made (put_doc h i g') [d] [] in
              if hangs || any_loop h then (h, DErr DLoop)
              else if is_reader can then
                match pick_prekeys h who i with
                | None => (h, DErr DFuel)
                | Some l => match doc_add_keys h i l (hs i) with
                            | (h, DOk ops) => (h, DOk (d, ops))
                            | (h, DErr e) => (h, DErr e)
                            end
                end
              else (h, DOk (d, []))
          end
      end
  end.

(** ** Removing members *)

(** The individuals behind the delegations of a member (keyhive.rs 571-590, document.rs 301-305). *)
Fixpoint behind (h : client) (l : list dlg) : option (gset ident) :=
  match l with
  | [] => Some ∅
  | d :: l => match individual_ids order (h_env h) (d_delegate d), behind h l with
              | Some s, Some s' => Some (s ∪ s')
              | _, _ => None
              end
  end.
(** document.rs 329-333: an error ends the call. *)
Fixpoint remove_keys (c : cgka) (l : list ident) (hs : list digest) : cgka * res (list signed_op) :=
  match l with
  | [] => (c, Ok [])
  | i :: l =>
      match hs with
      | [] => (c, OutOfFuel)
      | x :: hs =>
          match cgka_remove horder rorder c i x with
          | (c, Ok o) => match remove_keys c l hs with (c, Ok ops) => (c, Ok (option_list o ++ ops)) | r => r end
          | (c, Err e) => (c, Err e)
          | (c, Panic) => (c, Panic)
          | (c, OutOfFuel) => (c, OutOfFuel)
          end
      end
  end.
(** keyhive.rs 619-626: errors are ignored. *)
Fixpoint try_remove_keys (c : cgka) (l : list ident) (hs : list digest) : cgka * res (list signed_op) :=
  match l with
  | [] => (c, Ok [])
  | i :: l =>
      match hs with
      | [] => (c, OutOfFuel)
      | x :: hs =>
          match cgka_remove horder rorder c i x with
          | (c, Ok o) => match try_remove_keys c l hs with (c, Ok ops) => (c, Ok (option_list o ++ ops)) | r => r end
          | (c, Err _) => try_remove_keys c l hs
          | (c, Panic) => (c, Panic)
          | (c, OutOfFuel) => (c, OutOfFuel)
          end
      end
  end.
(** keyhive.rs 600-629: documents that still contain the group lose the individuals that do not belong
    to them any more. *)
Fixpoint remove_from_docs (h : client) (gid : ident) (ids : gset ident) (docs : list ident) (hs : ident -> list digest) : client * dres (list dop) :=
  match docs with
  | [] => (h, DOk [])
  | j :: docs =>
      match h_docs h !! j with
      | None => remove_from_docs h gid ids docs hs
      | Some g =>
          match caps_of order h g with
          | None => (h, DErr DFuel)
          | Some caps =>
              if bool_decide (is_Some (caps !! gid)) then
                let gone := order (filter (fun i => ~ (is_Some (caps !! i) /\ h_env h !! i = None)) ids) in
                match cgka_of h j with
                | None => remove_from_docs h gid ids docs hs
                | Some c =>
                    match try_remove_keys c gone (hs j) with
                    | (c, Ok ops) => match remove_from_docs (put_cgka h j c) gid ids docs hs with (h', DOk ops') => (h', DOk (map (signed_by h j) ops ++ ops')) | r => r end
                    | (c, r) => (put_cgka h j c, dmap (map (signed_by h j)) (of_res r))
                    end
                end
              else remove_from_docs h gid ids docs hs
          end
      end
  end.

(** The group is locked while its operations are made: see HiveModel, Locks. *)
Definition revoking_hangs (e : gmap ident (gmap ident (list dlg))) (g : group) (rs : list rev) (ds : list dlg) : bool :=
  existsb (revocation_hangs order e g) rs || existsb (delegation_hangs order e g) ds.
(** keyhive.rs 556-636 [revoke_member] by the active agent, membered.rs 133-156, document.rs 294-344.
    If revoking in the group fails the code keeps what was done so far; this function only reports the
    error, as in GroupModel. *)
Definition hive_revoke_member (h : client) (i target : ident) (retain : bool) (content : nat) (sigs : list sig) (hs : ident -> list digest) :
    client * dres (list rev * list dlg * list dop) :=
  if any_loop h then (h, DErr DLoop)
  else match h_groups h !! i with
  | Some g =>
      match behind h (default [] (gr_members g !! target)) with
      | None => (h, DErr DFuel)
      | Some ids =>
          match revoke_member order (h_env h) g target retain (me h) content sigs with
          | GErr e => (h, DErr (DGroup e))
          | GOk (g, rs, ds) =>
              if revoking_hangs (h_env h) g rs ds then (h, DErr DLoop) else
              let h := put_made (put_group h i g) ds rs in
              if bool_decide (ids = ∅) then (h, DOk (rs, ds, []))
              else match remove_from_docs h i ids (order (dom (h_docs h))) hs with
                   | (h, DOk ops) => (h, DOk (rs, ds, ops))
                   | (h, DErr e) => (h, DErr e)
                   end
          end
      end
  | None =>
      match h_docs h !! i with
      | None => (h, DErr DUnknown)
      | Some g =>
          match behind h (default [] (gr_members g !! target)) with
          | None => (h, DErr DFuel)
          | Some ids =>
              match revoke_member order (h_env h) g target retain (me h) content sigs with
              | GErr e => (h, DErr (DGroup e))
              | GOk (g, rs, ds) =>
                  if revoking_hangs (h_env h) g rs ds then (h, DErr DLoop) else
                  let h := put_made (put_doc h i g) ds rs in
                  match group_individual_ids order (h_env h) (gr_members g) with
                  | None => (h, DErr DFuel)
                  | Some still =>
                      match order (ids ∖ still) with
                      | [] => (h, DOk (rs, ds, []))
                      | gone =>
                          match cgka_of h i with
                          | None => (h, DErr (DCgka ENotInitialized))
                          | Some c =>
                              match remove_keys c gone (hs i) with
                              | (c, Ok ops) => (put_cgka h i c, DOk (rs, ds, map (signed_by h i) ops))
                              | (c, r) => (put_cgka h i c, match of_res r with DErr e => DErr e | DOk _ => DErr DPanic end)
                              end
                          end
                      end
                  end
              end
          end
      end
  end.

(** ** Making groups and documents *)

(** keyhive.rs 246-266 [generate_group]. *)
Definition hive_generate_group (h : client) (i : ident) (parents : list (ident * sig)) (content : nat) : client * dres unit :=
  match generate_group order i parents content with
  | None => (h, DErr DFuel)
  | Some g => (put_made (new_plain_group h i g) (map snd (map_to_list (gr_dheads g))) [], DOk tt)
  end.

(** keyhive.rs 271-316 [generate_doc], document.rs 156-223 [generate], group.rs 158-222: [doc] is the
    new key of the document, [sk] the generated share key, [parents] the members with the signatures
    of their delegations, [hs] the digests and [rng] the randomness of the key agreement.  The first
    member of the group key is the document itself; its secret stays with the creator. *)
Definition hive_generate_doc (h : client) (doc : ident) (parents : list (ident * sig)) (content : nat) (sk : secret_key)
    (h0 : digest) (hs : list digest) (hu : digest) (rng : list secret_key) : client * dres (list dop) :=
  match generate_group order doc parents content with
  | None => (h, DErr DFuel)
  | Some g =>
      (* nothing else refers to the new document *)
      match prekey_individuals order (<[doc := gr_members g]> (h_env h)) doc (ks_public (h_keys h)) (gr_members g) with
      | None => (h, DErr DFuel)
      | Some s =>
          let others := map (fun i => (i, pick i doc)) (filter (fun i => i <> doc) (order s)) in
          match cgka_from_init doc (pub sk) (SignedOp h0 (init_add doc (pub sk))) with
          | Ok c =>
              match add_keys (with_new_owner c doc {[ pub sk := sk ]}) others hs with
              | (c, Ok ops) =>
                  match cgka_update horder rorder c sk hu rng with
                  | (c, Ok (_, op, _)) =>
                      let h := put_made (new_document h doc g) (map snd (map_to_list (gr_dheads g))) [] in
                      (put_cgka h doc c, DOk (map (signed_by h doc) (SignedOp h0 (init_add doc (pub sk)) :: ops ++ [op])))
                  | (_, Err e) => (h, DErr (DCgka e))
                  | (_, Panic) => (h, DErr DPanic)
                  | (_, OutOfFuel) => (h, DErr DFuel)
                  end
              | (_, Err e) => (h, DErr (DCgka e))
              | (_, Panic) => (h, DErr DPanic)
              | (_, OutOfFuel) => (h, DErr DFuel)
              end
          | Err e => (h, DErr (DCgka e))
          | Panic => (h, DErr DPanic)
          | OutOfFuel => (h, DErr DFuel)
          end
      end
  end.

(** ** Content *)

(** keyhive.rs 664-688, document.rs 464-495 [try_encrypt_content_keyed]. *)
Definition hive_encrypt (h : client) (i : ident) (ref : nat) (content : list nat) (preds : list nat) (sk : secret_key) (x : digest) (rng : list secret_key) :
    client * dres (encrypted_content * option dop) :=
  match cgka_of h i with
  | None => (h, DErr (DCgka ENotInitialized))
  | Some c =>
      match new_app_secret_for horder rorder c ref content preds sk x rng with
      | (c, r) => (put_cgka h i c, match of_res r with DOk (s, o) => DOk (app_encrypt s content, signed_by h i <$> o) | DErr e => DErr e end)
      end
  end.
(** keyhive.rs 697-712, document.rs 497-537 [try_decrypt_content_keyed]; [None]: any [DecryptError]. *)
Definition hive_decrypt (h : client) (i : ident) (e : encrypted_content) : client * option (list nat) :=
  match cgka_of h i with
  | None => (h, None)
  | Some c =>
      match decryption_key_for rorder c e with
      | (c, Ok k) => (put_cgka h i c, content_decrypt e k)
      | (c, _) => (put_cgka h i c, None)
      end
  end.
(** keyhive.rs 730-743 [force_pcs_update], document.rs 448-462 [pcs_update]. *)
Definition hive_update (h : client) (i : ident) (sk : secret_key) (x : digest) (rng : list secret_key) : client * dres dop :=
  match cgka_of h i with
  | None => (h, DErr (DCgka ENotInitialized))
  | Some c =>
      match cgka_update horder rorder c sk x rng with
      | (c, r) => (put_cgka h i c, match of_res r with DOk (_, op, _) => DOk (signed_by h i op) | DErr e => DErr e end)
      end
  end.
End doc.
