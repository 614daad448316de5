(** Clients that share documents: each makes calls of its own and receives what others made, in
    any order, any number of times, possibly never. *)
From stdpp Require Import base list gmap relations.
From Verif Require Import ResModel KeysModel TreeModel OpsModel CgkaModel NetSpec.
From Verif Require Import AccessModel GroupModel PrekeyModel HiveModel DocModel TransactModel.

(** The clients; for every document, all operations of its group key made so far; and all
    ciphertexts made so far, with their documents. *)
Record team := Team {
  tm_clients : gmap nat client;
  tm_ops : ident -> gmap digest signed_op;
  tm_cts : list (ident * encrypted_content)
}.
(** The operations of the group key of document [d] that a client knows. *)
Definition known_ops (h : client) (d : ident) : gmap digest signed_op :=
  match cgka_of h d with Some c => g_ops (c_graph c) | None => ∅ end.
(** Client [r] is now [h]; what it knows has been made. *)
Definition went (t : team) (r : nat) (h : client) : team :=
  Team (<[r := h]> (tm_clients t)) (fun d => tm_ops t d ∪ known_ops h d) (tm_cts t).
Definition wrote (t : team) (d : ident) (e : encrypted_content) : team := Team (tm_clients t) (tm_ops t) ((d, e) :: tm_cts t).

(** Digests of new operations: different ones that nobody has seen. *)
Definition unseen (t : team) (d : ident) (l : list digest) : Prop := NoDup l /\ forall x, x ∈ l -> tm_ops t d !! x = None.
(** An operation of a group key with a valid signature was made by somebody (other events are
    not restricted), and the public individual has its one key. *)
Definition genuine (t : team) (h : client) (x : sevent dop) : Prop :=
  match x with
  | ECgka o => do_ok o = true -> tm_ops t (do_doc o) !! so_hash (do_op o) = Some (do_op o) /\
      forall pk i ps qs, so_op (do_op o) = CAdd (ks_public (h_keys h)) pk i ps qs -> pk = pub public_secret
  | _ => True
  end.

Section team.
(** Each client has its own iteration orders and picks prekeys by what it knows. *)
Context (order : nat -> gset nat -> list nat) (ho : nat -> gset digest -> list digest) (ro : nat -> gset (member_id * nat) -> list (member_id * nat)).
Context (pick : nat -> client -> ident -> ident -> share_key) (doc_content : nat -> ident -> bool).

Inductive team_step (t : team) : team -> Prop :=
| ts_group r h i parents content h' x : tm_clients t !! r = Some h ->
    hive_generate_group (order r) h i parents content = (h', x) -> team_step t (went t r h')
| ts_doc r h i parents content sk h0 hs hu rng h' x : tm_clients t !! r = Some h -> tm_ops t i = ∅ -> NoDup (h0 :: hs ++ [hu]) ->
    hive_generate_doc (order r) (ho r) (ro r) (pick r h) h i parents content sk h0 hs hu rng = (h', x) -> team_step t (went t r h')
| ts_add r h i who can content s hs h' x : tm_clients t !! r = Some h -> (forall d, unseen t d (hs d)) ->
    hive_add_member (order r) (ho r) (ro r) (pick r h) h i who can content s hs = (h', x) -> team_step t (went t r h')
| ts_revoke r h i target retain content sigs hs h' x : tm_clients t !! r = Some h -> (forall d, unseen t d (hs d)) ->
    hive_revoke_member (order r) (ho r) (ro r) h i target retain content sigs hs = (h', x) -> team_step t (went t r h')
| ts_update r h d sk x rng h' y : tm_clients t !! r = Some h -> tm_ops t d !! x = None ->
    hive_update (ho r) (ro r) h d sk x rng = (h', y) -> team_step t (went t r h')
| ts_encrypt r h d ref content preds sk x rng h' e o : tm_clients t !! r = Some h -> tm_ops t d !! x = None ->
    hive_encrypt (ho r) (ro r) h d ref content preds sk x rng = (h', DOk (e, o)) -> team_step t (wrote (went t r h') d e)
| ts_encrypt_fail r h d ref content preds sk x rng h' y : tm_clients t !! r = Some h -> tm_ops t d !! x = None ->
    hive_encrypt (ho r) (ro r) h d ref content preds sk x rng = (h', DErr y) -> team_step t (went t r h')
| ts_decrypt r h d e h' y : tm_clients t !! r = Some h -> (d, e) ∈ tm_cts t ->
    hive_decrypt (ro r) h d e = (h', y) -> team_step t (went t r h')
| ts_receive r h x h' y : tm_clients t !! r = Some h -> genuine t h x ->
    receive_event (order r) doc_content do_doc do_ok (doc_receive (ho r) (ro r)) h x = (h', y) -> team_step t (went t r h')
| ts_prekey r h make sk h' o : tm_clients t !! r = Some h -> make_prekey h make sk = Some (h', o) -> team_step t (went t r h')
(* keyhive.rs 342-368 *)
| ts_card r h o : tm_clients t !! r = Some h -> team_step t (went t r (put_keys h (receive_contact_card (h_keys h) o).1))
(* what a client keeps for a later attempt changes *)
| ts_pending r h l : tm_clients t !! r = Some h -> team_step t (went t r (put_pending h l))
(* a client gets more secrets of prekeys *)
| ts_secrets r h l : tm_clients t !! r = Some h -> good_sks l -> team_step t (went t r (put_cg h (Cgs (l ∪ cs_pairs (h_cg h)) (cs_docs (h_cg h))))).

(** At first the clients know of no groups and documents, and have any prekeys. *)
Inductive team_reachable : team -> Prop :=
| tr_start t : (forall r h, tm_clients t !! r = Some h -> h_groups h = ∅ /\ h_docs h = ∅ /\ cs_docs (h_cg h) = ∅ /\ good_sks (cs_pairs (h_cg h))) ->
    (forall d, tm_ops t d = ∅) -> tm_cts t = [] -> team_reachable t
| tr_step t t' : team_reachable t -> team_step t t' -> team_reachable t'.
End team.

(** What concerns one document: the key agreements of those clients that have it. *)
Definition contents (t : team) (d : ident) : list encrypted_content := omap (fun x => if decide (x.1 = d) then Some x.2 else None) (tm_cts t).
Definition seen_as (t : team) (d : ident) : network := Net (omap (fun h => cgka_of h d) (tm_clients t)) (tm_ops t d) (contents t d).
