(** Which secrets were made when, in a network in which operations are made in turn. *)
From stdpp Require Import base list gmap relations.
From Verif Require Import ResModel KeysModel TreeModel TreeSpec SecrecySpec OpsModel OpsSpec CgkaModel CgkaSpec NetSpec TurnSpec.

(** The ledger has one entry for every operation, in order: its digest, the member it is about
    and the secrets that came with it.  The entry of an addition holds the secret of the key
    the member was added with, that of an update the new leaf secret and everything its random
    generator produced.  Nobody in the network sees the ledger. *)
Notation ledger := (list (digest * tree_op)).

Section ledger.
Context (horder : nat -> gset digest -> list digest).
Context (rorder : nat -> gset (member_id * nat) -> list (member_id * nat)).
Inductive logged : network -> ledger -> Prop :=
| lg_start r id pk h c sks : cgka_from_init id pk (SignedOp h (init_add id pk)) = Ok c -> good_sks sks ->
    logged (Net {[ r := with_new_owner c id sks ]} {[ h := SignedOp h (init_add id pk) ]} []) [(h, OAdd id pk)]
(** a step that makes no operation *)
| lg_quiet n led n' : logged n led -> turn_step horder rorder n n' -> n_ops n' = n_ops n -> logged n' led
| lg_add n led r c c' id pk h op : logged n led -> n_reps n !! r = Some c -> informed n c -> n_ops n !! h = None ->
    cgka_add (horder r) (rorder r) c id pk h = (c', Ok (Some op)) ->
    logged (moved n r c') (led ++ [(h, OAdd id pk)])
| lg_remove n led r c c' id h op : logged n led -> n_reps n !! r = Some c -> informed n c -> n_ops n !! h = None ->
    cgka_remove (horder r) (rorder r) c id h = (c', Ok (Some op)) ->
    logged (moved n r c') (led ++ [(h, ORemove id)])
(** an update is made for the owner or, by somebody who is not a member, for the public member *)
| lg_update n led r c c' sk h rng k op rest id pc ps s : logged n led -> n_reps n !! r = Some c -> informed n c -> n_ops n !! h = None ->
    cgka_update (horder r) (rorder r) c sk h rng = (c', Ok (k, op, rest)) ->
    so_op op = CUpdate id pc ps -> pc_leaf_pk pc = SKey (pub s) ->
    logged (moved n r c') (led ++ [(h, OUpdate id s rng)])
| lg_encrypt n led r c c' ref content preds sk h rng a op id pc ps s : logged n led -> n_reps n !! r = Some c -> informed n c -> n_ops n !! h = None ->
    new_app_secret_for (horder r) (rorder r) c ref content preds sk h rng = (c', Ok (a, Some op)) ->
    so_op op = CUpdate id pc ps -> pc_leaf_pk pc = SKey (pub s) ->
    logged (sent (moved n r c') [app_encrypt a content]) (led ++ [(h, OUpdate id s rng)]).
End ledger.

(** The sealed secrets everybody on the network sees. *)
Definition seen (ops : gmap digest signed_op) (e : enc_secret) : Prop :=
  exists h o id pc ps, ops !! h = Some o /\ so_op o = CUpdate id pc ps /\ published [pc] e.

(** Secrets of entries that a later one of the list overrides. *)
Definition outdated (led : ledger) (s : secret_key) : Prop :=
  exists n op, map snd led !! n = Some op /\ superseded (map snd led) n /\ op_secret op s.
(** Secrets of the entries of a list. *)
Definition entered (led : ledger) (s : secret_key) : Prop := exists h op, (h, op) ∈ led /\ op_secret op s.
(** Secrets that came with operations about some members. *)
Definition entered_for (C : member_id -> Prop) (led : ledger) (s : secret_key) : Prop :=
  exists h op, (h, op) ∈ led /\ C (op_member op) /\ op_secret op s.

(** Nothing that can be derived from the secrets [K] and all that was sent opens the message. *)
Definition closed_to (K : secret_key -> Prop) (ops : gmap digest signed_op) (e : encrypted_content) : Prop :=
  forall k preds ref, derivable K (seen ops) k -> content_decrypt e (AppKey k preds ref) = None.
