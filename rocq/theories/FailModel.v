(** Model of what a call that ends with an error leaves behind: group.rs 556-726 [revoke_member] with
    the operations that were made before the error (GroupModel's [revoke_member] only reports it), and
    keyhive.rs 556-636 [revoke_member] with it. *)
From Coq Require Import Arith.
From stdpp Require Import base list gmap.
From Verif Require Import ResModel KeysModel TreeModel OpsModel CgkaModel.
From Verif Require Import AccessModel GroupModel PrekeyModel HiveModel SyncModel DocModel.

Local Notation env := (gmap ident (gmap ident (list dlg))).
Section fail.
Context (order : gset nat -> list nat).

(** Each function returns the group as it is when the function returns, the operations made until then, and the
    signatures that are left or the error. *)

(** group.rs 590-623: with the signer's own admin delegations. *)
Fixpoint as_admin_so_far (e : env) (g : group) (signer target : ident) (d : dlg) (mine : list dlg) (content : nat) (sigs : list sig) :
    group * list rev * gres (list sig) :=
  match mine with
  | [] => (g, [], GOk sigs)
  | m :: mine =>
      if negb (d_delegate m =? target) || negb (bool_decide (d_can m = Admin))
      then as_admin_so_far e g signer target d mine content sigs
      else match revoke_one order e g signer d (Some m) content sigs with
           | GErr er => (g, [], GErr er)
           | GOk (g, r, sigs) => let '(g, rs, x) := as_admin_so_far e g signer target d mine content sigs in (g, r :: rs, x)
           end
  end.
(** group.rs 587-695: one delegation of the member to remove. *)
Definition one_so_far (e : env) (g : group) (signer target : ident) (d : dlg) (content : nat) (sigs : list sig) :
    group * list rev * gres (list sig) :=
  match as_admin_so_far e g signer target d (default [] (gr_members g !! signer)) content sigs with
  | (g, rs, GErr er) => (g, rs, GErr er)
  | (g, rs, GOk sigs) =>
      let with_proof p :=
        match revoke_one order e g signer d (Some p) content sigs with
        | GErr er => (g, rs, GErr er)
        | GOk (g, r, sigs) => (g, rs ++ [r], GOk sigs)
        end in
      match (if d_issuer d =? signer then Some d else List.find (fun a => d_issuer a =? signer) (lineage d)) with
      | Some p => with_proof p
      | None =>
          match rs with
          | _ :: _ => (g, rs, GOk sigs)
          | [] =>
              match find_revoker order e (gr_members g) signer (d_can d) (order (dom (gr_members g))) with
              | GErr er => (g, rs, GErr er)
              | GOk None => (g, rs, GErr ENoProof)
              | GOk (Some p) => with_proof p
              end
          end
      end
  end.
(** group.rs 575-695: all of them, one after the other. *)
Fixpoint all_so_far (e : env) (g : group) (signer target : ident) (l : list dlg) (content : nat) (sigs : list sig) :
    group * list rev * gres (list sig) :=
  match l with
  | [] => (g, [], GOk sigs)
  | d :: l =>
      match (if signer =? gr_id g
             then match revoke_one order e g signer d None content sigs with
                  | GErr er => (g, [], GErr er)
                  | GOk (g, r, sigs) => (g, [r], GOk sigs)
                  end
             else one_so_far e g signer target d content sigs) with
      | (g, rs, GErr er) => (g, rs, GErr er)
      | (g, rs, GOk sigs) => let '(g, rs', x) := all_so_far e g signer target l content sigs in (g, rs ++ rs', x)
      end
  end.
(** group.rs 703-719: what the removed member had granted is granted again. *)
Fixpoint regrant_so_far (e : env) (g : group) (signer target : ident) (l : list dlg) (content : nat) (sigs : list sig) :
    group * list dlg * gres unit :=
  match l with
  | [] => (g, [], GOk tt)
  | d :: l =>
      if negb (d_delegate d =? target) && match d_proof d with Some p => d_delegate p =? target | None => false end then
        match sigs with
        | [] => (g, [], GErr GFuel)
        | s :: sigs =>
            match add_member order e g (d_delegate d) (d_can d) signer content s with
            | GErr er => (g, [], GErr er)
            | GOk (g, d') => let '(g, ds, x) := regrant_so_far e g signer target l content sigs in (g, d' :: ds, x)
            end
        end
      else regrant_so_far e g signer target l content sigs
  end.
(** group.rs 556-726 [revoke_member]. *)
Definition revoke_so_far (e : env) (g : group) (target : ident) (retain : bool) (signer : ident) (content : nat) (sigs : list sig) :
    group * list rev * list dlg * gres unit :=
  let og := concat (omap (gr_members g !!.) (order (dom (gr_members g)))) in
  match default [] (gr_members g !! target) with
  | [] => (Group (gr_id g) (gr_dheads g) (gr_rheads g) (delete target (gr_members g)) (gr_active g), [], [], GOk tt)
  | ds =>
      match all_so_far e g signer target ds content sigs with
      | (g, rs, GErr er) => (g, rs, [], GErr er)
      | (g, rs, GOk sigs) =>
          if retain then let '(g, ns, x) := regrant_so_far e g signer target og content sigs in (g, rs, ns, x)
          else (g, rs, [], GOk tt)
      end
  end.

(** keyhive.rs 556-636 [revoke_member], as [hive_revoke_member] of DocModel, but an error from the group leaves behind
    what was done before: the operations are in the group and in the stores (state.rs 112-264), and line 599 returns
    before any key is changed. *)
Context (horder : gset digest -> list digest) (rorder : gset (member_id * nat) -> list (member_id * nat)).
Definition hive_revoke (h : client) (i target : ident) (retain : bool) (content : nat) (sigs : list sig) (hs : ident -> list digest) :
    client * dres (list rev * list dlg * list dop) :=
  match hive_revoke_member order horder rorder h i target retain content sigs hs with
  | (_, DErr (DGroup er)) =>
      let left (put : client -> ident -> group -> client) (g : group) :=
        let '(g, rs, ds, _) := revoke_so_far (h_env h) g target retain (me h) content sigs in
        if revoking_hangs order (h_env h) g rs ds then (h, DErr DLoop) else (put_made (put h i g) ds rs, DErr (DGroup er)) in
      match h_groups h !! i with
      | Some g => left put_group g
      | None => match h_docs h !! i with Some g => left put_doc g | None => (h, DErr DUnknown) end
      end
  | r => r
  end.
End fail.
