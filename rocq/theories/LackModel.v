(** What a client says about an event that it refuses: is something missing that may still arrive? *)
From Coq Require Import Arith Lia.
From stdpp Require Import base list gmap relations.
From Verif Require Import ResModel KeysModel TreeModel OpsModel CgkaModel.
From Verif Require Import AccessModel GroupModel PrekeyModel HiveModel DocModel.

(** beekem/src/error.rs 131-140 [CgkaError::is_missing_dependency]. *)
Definition cgka_missing (e : cgka_error) : bool :=
  match e with
  | ENotInitialized | EIdentifierNotFound | EUnexpectedInitialOperation | EUnexpectedInviteOperation | EOutOfOrderOperation => true
  | _ => false
  end.
(** keyhive.rs 2629-2635 and 2672-2681 [is_missing_dependency], for the errors of prekey and membership operations.  The errors of the key
    agreement are one constructor of [herror]; [key_refusal] tells them apart. *)
Definition member_missing (e : herror) : bool :=
  match e with
  | HMissingDelegation _ | HMissingRevocation _ | HUnknownAgent _ => true
  | HBadSignature | HAdd _ | HPrekey _ | HCgka | HUnknownDocument => false
  end.

Section lack.
Context (order : gset nat -> list nat) (mentions : nat -> ident -> bool) (horder : gset digest -> list digest) (rorder : gset (member_id * nat) -> list (member_id * nat)).

(** keyhive.rs 2763-2770: [None] when the operation is taken.  A panic, or a model loop that ran out of fuel, counts as a refusal (as
    in [doc_receive]) that is not for something missing. *)
Definition refused {A} (r : res A) : option bool := match r with Ok _ => None | Err e => Some (cgka_missing e) | _ => Some false end.
(** keyhive.rs 1781-1832 [receive_cgka_op] with 2763-2770: the branches of [receive_cgka] and [doc_receive], keeping the error and not the
    new state. *)
Definition key_refusal (h : client) (o : dop) : option bool :=
  if negb (do_ok o) then Some false
  else match h_docs h !! do_doc o with
  | None => Some false
  | Some _ =>
      let c := cgka_of h (do_doc o) in
      match so_op (do_op o) with
      | CAdd id pk _ _ _ =>
          if id =? me h then
            match cs_pairs (h_cg h) !! pk with
            | None => Some false
            | Some sk => refused (merge_cgka_invite_op horder rorder c (do_op o) sk).2
            end
          else if id =? ks_public (h_keys h) then
            match merge_cgka_invite_op horder rorder c (do_op o) public_secret with
            | (c, Ok _) => refused (reset_cgka_owner c (me h)).2
            | (_, r) => refused r
            end
          else refused (merge_cgka_op horder rorder c (do_op o)).2
      | _ => refused (merge_cgka_op horder rorder c (do_op o)).2
      end
  end.
(** keyhive.rs 1748-1766 [receive_static_event] followed by [is_missing_dependency] on the error (2629-2635); [None] when there is none. *)
Definition missing (h : client) (x : sevent dop) : option bool :=
  match x with
  | ECgka o => key_refusal h o
  | _ => match (receive_event order mentions do_doc do_ok (doc_receive horder rorder) h x).2 with HFail e => Some (member_missing e) | _ => None end
  end.
End lack.
