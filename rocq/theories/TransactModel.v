(** Model of transactions on a client: keyhive_core/src/keyhive.rs 2508-2589 [fork_async] and
    [merge_async], transact.rs 128-151 [transact_async], and what the listener of the fork
    (listener/log.rs) is told.

    A fork is a client of its own: nothing is shared with the trunk (it is made from an archive). *)
From Coq Require Import Arith.
From stdpp Require Import base list gmap.
From Verif Require Import ResModel KeysModel TreeModel OpsModel CgkaModel.
From Verif Require Import AccessModel GroupModel PrekeyModel HiveModel SyncModel ArchiveModel DocModel.

(** The calls that the body of a transaction makes on the fork, with what the code draws at random or
    computes by hashing.  (Other calls only read.) *)
Inductive call :=
| TGroup (i : ident) (parents : list (ident * sig)) (content : nat)
| TDoc (i : ident) (parents : list (ident * sig)) (content : nat) (sk : secret_key) (h0 : digest) (hs : list digest) (hu : digest) (rng : list secret_key)
| TAdd (i who : ident) (can : access) (content : nat) (s : sig) (hs : ident -> list digest)
| TRevoke (i target : ident) (retain : bool) (content : nat) (sigs : list sig) (hs : ident -> list digest)
| TUpdate (j : ident) (sk : secret_key) (x : digest) (rng : list secret_key)
| TEncrypt (j : ident) (ref : nat) (content preds : list nat) (sk : secret_key) (x : digest) (rng : list secret_key)
| TExpand (sk : secret_key)
| TRotate (old : share_key) (sk : secret_key)
| TCard (o : keyop)
| TReceive (x : sevent dop).

(** keyhive.rs 371-389, active.rs 178-263 [rotate_prekey] and [expand_prekeys] ([active_rotate] and
    [active_expand] in PrekeyModel) with the generated secret: the individual of the active agent and
    the prekey secrets.  Without that individual (no client lacks it) nothing is modelled. *)
Definition make_prekey (h : client) (make : active -> share_key -> active * keyop) (sk : secret_key) : option (client * keyop) :=
  match ks_indies (h_keys h) !! me h with
  | None => None
  | Some x =>
      let '(a, o) := make (Active (dom (cs_pairs (h_cg h))) x) (pub sk) in
      Some (put_cg (put_keys h (set_indie (h_keys h) (me h) (ac_ind a))) (Cgs (<[pub sk := sk]> (cs_pairs (h_cg h))) (cs_docs (h_cg h))), o)
  end.

(** How a transaction ends. [AForkPanics]: keyhive.rs 2533; [AFailed]: the body ended with an error, and the
    fork is dropped; [AMergePanics]: 2584; [AMergeHangs]: a lock is waited for that is held. *)
Inductive txn_outcome := ADone (h : client) | AFailed | AForkPanics | AMergePanics | AMergeHangs | AFuel.

Section transact.
Context (order : gset nat -> list nat) (horder : gset digest -> list digest) (rorder : gset (member_id * nat) -> list (member_id * nat)).
Context (pick : ident -> ident -> share_key) (doc_content : nat -> ident -> bool).
Notation receive := (receive_event order doc_content do_doc do_ok (doc_receive horder rorder)).

(** What the listener is told while an event is received: prekeys: nothing; keyhive.rs 1796-1830: an
    operation of a group key that was new; keyhive.rs 1589-1679: a delegation only if it makes a new
    group or document (group.rs 99, 120; [receive_delegation] of group.rs 418-427 tells nothing);
    group.rs 430-435: a revocation before it is checked. *)
Definition heard (h : client) (x : sevent dop) (out : houtcome) : list (sevent dop) :=
  match x with
  | EKey _ => []
  | ECgka o =>
      match out with
      | HDone => match cgka_of h (do_doc o) with
                 | Some c => if contains_op (c_graph c) (so_hash (do_op o)) then [] else [x]
                 | None => [x]
                 end
      | _ => []
      end
  | EDlg d =>
      if bool_decide (is_Some (h_dlgs h !! sd_sig d)) || negb (sd_ok d) then []
      else match resolve_dlg h d with
           | inl _ => []
           | inr d => if bool_decide (is_Some (h_groups h !! d_subject d)) || bool_decide (is_Some (h_docs h !! d_subject d)) then [] else [x]
           end
  | ERev r =>
      if bool_decide (is_Some (h_revs h !! sr_sig r)) || negb (sr_ok r) then []
      else match resolve_rev h r with
           | inl _ => []
           | inr r => if bool_decide (is_Some (h_groups h !! r_subject r)) || bool_decide (is_Some (h_docs h !! r_subject r)) then [x]
                      else [static_of (MD (r_revoke r)); x]
           end
  end.

(** One call on the fork, and what the listener is told: group.rs 194, 541, 434 and 690 (every revocation
    twice), document.rs 216, keyhive.rs 358-365, 546, 637, 685, 741, active.rs 218 and 261.  An error ends the body; a body that goes on
    after an error is not modelled.  Receiving goes through [receive_static_event], whose errors are
    not fatal to the body. *)
Definition run_call (h : client) (c : call) : option (client * list (sevent dop)) :=
  match c with
  | TGroup i parents content =>
      match hive_generate_group order h i parents content with
      | (h, DOk _) => Some (h, map (fun x => static_of (MD (Dlg x.2 i x.1 Admin None [] content))) parents)
      | _ => None
      end
  | TDoc i parents content sk h0 hs hu rng =>
      match hive_generate_doc order horder rorder pick h i parents content sk h0 hs hu rng with
      | (h, DOk ops) => Some (h, map (fun x => static_of (MD (Dlg x.2 i x.1 Admin None [] content))) parents ++ map ECgka ops)
      | _ => None
      end
  | TAdd i who can content s hs =>
      match hive_add_member order horder rorder pick h i who can content s hs with
      | (h, DOk (d, ops)) => Some (h, static_of (MD d) :: map ECgka ops)
      | _ => None
      end
  | TRevoke i target retain content sigs hs =>
      match hive_revoke_member order horder rorder h i target retain content sigs hs with
      | (h, DOk (rs, ds, ops)) => Some (h, map (fun r => static_of (MR r)) (rs ++ rs) ++ map (fun d => static_of (MD d)) ds ++ map ECgka ops)
      | _ => None
      end
  | TUpdate j sk x rng =>
      match hive_update horder rorder h j sk x rng with
      | (h, DOk op) => Some (h, [ECgka op])
      | _ => None
      end
  | TEncrypt j ref content preds sk x rng =>
      match hive_encrypt horder rorder h j ref content preds sk x rng with
      | (h, DOk (_, op)) => Some (h, map ECgka (option_list op))
      | _ => None
      end
  | TExpand sk => (fun x => (x.1, [EKey x.2])) <$> make_prekey h active_expand sk
  | TRotate old sk => (fun x => (x.1, [EKey x.2])) <$> make_prekey h (fun a new => active_rotate a old new) sk
  | TCard o =>
      match receive_contact_card (h_keys h) o with
      | (k, None) => Some (put_keys h k, [EKey o])
      | (_, Some _) => None
      end
  | TReceive x =>
      match receive h x with
      | (h', HHang) | (h', HPanic) => None
      | (h', out) => Some (h', heard h x out)
      end
  end.
Fixpoint run_calls (h : client) (cs : list call) : option (client * list (sevent dop)) :=
  match cs with
  | [] => Some (h, [])
  | c :: cs =>
      match run_call h c with
      | None => None
      | Some (h, l) => match run_calls h cs with Some (h, l') => Some (h, l ++ l') | None => None end
      end
  end.

(** keyhive.rs 2549-2567 and active.rs 384-395: the prekeys and their secrets, and the individuals. *)
Definition absorb (h f : client) : client :=
  put_cg (put_keys h (merge_keys (h_keys h) (h_keys f))) (Cgs (cs_pairs (h_cg f) ∪ cs_pairs (h_cg h)) (cs_docs (h_cg h))).
(** keyhive.rs 2569-2586: what the listener was told, except prekeys, is received; an error is a panic. *)
Fixpoint replay (h : client) (log : list (sevent dop)) : txn_outcome :=
  match log with
  | [] => ADone h
  | EKey _ :: log => replay h log
  | x :: log =>
      match receive h x with
      | (h, HDone) => replay h log
      | (_, HHang) => AMergeHangs
      | (_, _) => AMergePanics
      end
  end.
(** keyhive.rs 2549-2588 [merge_async]. *)
Definition merge_fork (h f : client) (log : list (sevent dop)) : txn_outcome := replay (absorb h f) log.
(** keyhive.rs 2522-2535 [fork_async]. *)
Definition fork_client (h : client) : txn_outcome :=
  match into_archive order h with
  | None => AFuel
  | Some a => match try_from_archive order a with inl _ => AForkPanics | inr f => ADone f end
  end.
(** transact.rs 128-151 [transact_async] on a client that becomes [later h] while the body runs. *)
Definition transact (h : client) (later : client -> client) (cs : list call) : txn_outcome :=
  match fork_client h with
  | ADone f => match run_calls f cs with None => AFailed | Some (f, log) => merge_fork (later h) f log end
  | r => r
  end.
End transact.
