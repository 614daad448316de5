(** A network of replicas that follow the protocol and exchange group-key operations and
    ciphertexts in any order, any number of times, possibly never. *)
From stdpp Require Import base list gmap relations.
From Verif Require Import ResModel KeysModel TreeModel OpsModel OpsSpec CgkaModel CgkaSpec.

(** Secret keys are filed under their public keys. *)
Definition good_sks (sks : sk_map) : Prop := forall pk sk, sks !! pk = Some sk -> pub sk = pk.

(** The replicas, every operation and every ciphertext made so far. *)
Record network := Net {
  n_reps : gmap nat cgka;
  n_ops : gmap digest signed_op;
  n_cts : list encrypted_content
}.

Section net.
(** Each replica has its own iteration orders. *)
Context (horder : nat -> gset digest -> list digest).
Context (rorder : nat -> gset (member_id * nat) -> list (member_id * nat)).

(** Replica [r] moved to state [c]; what is in its graph has been made. *)
Definition moved (n : network) (r : nat) (c : cgka) : network :=
  Net (<[r := c]> (n_reps n)) (n_ops n ∪ g_ops (c_graph c)) (n_cts n).
Definition sent (n : network) (cts : list encrypted_content) : network :=
  Net (n_reps n) (n_ops n) (cts ++ n_cts n).

(** New operations get digests nobody has seen; received operations and ciphertexts were
    made by somebody.  Calls may fail. *)
Inductive net_step (n : network) : network -> Prop :=
| ns_join r id pk h c : n_reps n !! r = None -> n_ops n !! h = Some (SignedOp h (init_add id pk)) ->
    cgka_from_init id pk (SignedOp h (init_add id pk)) = Ok c -> net_step n (moved n r c)
| ns_owner r c id sks : n_reps n !! r = Some c -> good_sks sks -> net_step n (moved n r (with_new_owner c id sks))
| ns_add r c c' id pk h x : n_reps n !! r = Some c -> n_ops n !! h = None ->
    cgka_add (horder r) (rorder r) c id pk h = (c', x) -> net_step n (moved n r c')
| ns_remove r c c' id h x : n_reps n !! r = Some c -> n_ops n !! h = None ->
    cgka_remove (horder r) (rorder r) c id h = (c', x) -> net_step n (moved n r c')
| ns_update r c c' sk h rng x : n_reps n !! r = Some c -> n_ops n !! h = None ->
    cgka_update (horder r) (rorder r) c sk h rng = (c', x) -> net_step n (moved n r c')
| ns_receive r c c' h op x : n_reps n !! r = Some c -> n_ops n !! h = Some op ->
    merge_concurrent_operation (horder r) (rorder r) c op = (c', x) -> net_step n (moved n r c')
| ns_encrypt r c c' ref content preds sk h rng s o : n_reps n !! r = Some c -> n_ops n !! h = None ->
    new_app_secret_for (horder r) (rorder r) c ref content preds sk h rng = (c', Ok (s, o)) ->
    net_step n (sent (moved n r c') [app_encrypt s content])
| ns_encrypt_fail r c c' ref content preds sk h rng x : n_reps n !! r = Some c -> n_ops n !! h = None ->
    new_app_secret_for (horder r) (rorder r) c ref content preds sk h rng = (c', x) -> (forall s, x <> Ok s) ->
    net_step n (moved n r c')
| ns_decrypt r c c' e x : n_reps n !! r = Some c -> e ∈ n_cts n ->
    decryption_key_for (rorder r) c e = (c', x) -> net_step n (moved n r c').

(** It starts with one replica that creates the group. *)
Inductive net_reachable : network -> Prop :=
| nr_start r id pk h c : cgka_from_init id pk (SignedOp h (init_add id pk)) = Ok c ->
    net_reachable (Net {[ r := c ]} {[ h := SignedOp h (init_add id pk) ]} [])
| nr_step n n' : net_reachable n -> net_step n n' -> net_reachable n'.
End net.
