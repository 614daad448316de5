(** What a client should have of the group keys of its documents once it was handed some operations. *)
From stdpp Require Import base list gmap.
From Verif Require Import ResModel KeysModel TreeModel OpsModel CgkaModel NetSpec GrowSpec ReadSpec.
From Verif Require Import AccessModel GroupModel PrekeyModel HiveModel DocModel TeamSpec.

(** When an operation adds the client itself, the client has the secret of the prekey that was used. *)
Definition opens (h : client) (o : signed_op) : Prop :=
  forall id pk i ps qs, so_op o = CAdd id pk i ps qs -> id = me h -> is_Some (cs_pairs (h_cg h) !! pk).
(** An operation of the key of document [d] is there in the end if it is known already, or is handed over while
    everything it was made on top of is there in the end, with the secret if it adds the client. *)
Inductive arrives (h : client) (handed : sevent dop -> Prop) (d : ident) : signed_op -> Prop :=
| ar_known o : TeamSpec.known_ops h d !! so_hash o = Some o -> arrives h handed d o
| ar_handed x : handed (ECgka x) -> do_doc x = d -> opens h (do_op x) ->
    (forall p, p ∈ op_preds (so_op (do_op x)) -> exists q, so_hash q = p /\ arrives h handed d q) -> arrives h handed d (do_op x).

(** The events in question: operations of keys that somebody in the team made, properly signed, of documents that the
    client knows and whose changes of members took turns.  The public individual has its one key, and a document is not
    begun with the client or the public individual. *)
Definition addressed (t : team) (h : client) (x : sevent dop) : Prop :=
  match x with
  | ECgka o =>
      do_ok o = true /\ tm_ops t (do_doc o) !! so_hash (do_op o) = Some (do_op o) /\ is_Some (h_docs h !! do_doc o) /\ orderly (tm_ops t (do_doc o)) /\
      forall id pk i ps qs, so_op (do_op o) = CAdd id pk i ps qs ->
        (id = ks_public (h_keys h) -> pk = pub public_secret) /\ (ps = [] -> id <> me h /\ id <> ks_public (h_keys h))
  | _ => False
  end.
