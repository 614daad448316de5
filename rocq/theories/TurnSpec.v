(** A network in which group-key operations are made one after the other: whoever makes one
    has received all earlier ones.  Replicas may lag behind arbitrarily, receive anything any
    number of times and in any order, and encrypt with a key they still believe current. *)
From stdpp Require Import base list gmap relations.
From Verif Require Import ResModel KeysModel TreeModel OpsModel OpsSpec CgkaModel CgkaSpec NetSpec.

Section turns.
(** Each replica has its own iteration orders. *)
Context (horder : nat -> gset digest -> list digest).
Context (rorder : nat -> gset (member_id * nat) -> list (member_id * nat)).

(** The replica has everything. *)
Definition informed (n : network) (c : cgka) : Prop := g_ops (c_graph c) = n_ops n.

(** One step.  Calls may fail.  A replica is set up from the first operation with its owner
    and the secrets the owner has; more secrets may come in (document.rs 407-434). *)
Inductive turn_step (n : network) : network -> Prop :=
| tu_join r id pk h c me sks : n_reps n !! r = None -> n_ops n !! h = Some (SignedOp h (init_add id pk)) ->
    cgka_from_init id pk (SignedOp h (init_add id pk)) = Ok c -> good_sks sks ->
    turn_step n (moved n r (with_new_owner c me sks))
| tu_secret r c s : n_reps n !! r = Some c ->
    turn_step n (moved n r (with_new_owner c (c_owner c) (<[pub s := s]> (c_sks c))))
| tu_add r c c' id pk h x : n_reps n !! r = Some c -> informed n c -> n_ops n !! h = None ->
    cgka_add (horder r) (rorder r) c id pk h = (c', x) -> turn_step n (moved n r c')
| tu_remove r c c' id h x : n_reps n !! r = Some c -> informed n c -> n_ops n !! h = None ->
    cgka_remove (horder r) (rorder r) c id h = (c', x) -> turn_step n (moved n r c')
| tu_update r c c' sk h rng x : n_reps n !! r = Some c -> informed n c -> n_ops n !! h = None ->
    cgka_update (horder r) (rorder r) c sk h rng = (c', x) -> turn_step n (moved n r c')
| tu_receive r c c' h op x : n_reps n !! r = Some c -> n_ops n !! h = Some op ->
    merge_concurrent_operation (horder r) (rorder r) c op = (c', x) -> turn_step n (moved n r c')
| tu_encrypt r c c' ref content preds sk h rng s o : n_reps n !! r = Some c ->
    informed n c \/ has_pcs_key c = Ok true -> n_ops n !! h = None ->
    new_app_secret_for (horder r) (rorder r) c ref content preds sk h rng = (c', Ok (s, o)) ->
    turn_step n (sent (moved n r c') [app_encrypt s content])
| tu_encrypt_fail r c c' ref content preds sk h rng x : n_reps n !! r = Some c ->
    informed n c \/ has_pcs_key c = Ok true -> n_ops n !! h = None ->
    new_app_secret_for (horder r) (rorder r) c ref content preds sk h rng = (c', x) -> (forall s, x <> Ok s) ->
    turn_step n (moved n r c')
| tu_decrypt r c c' e x : n_reps n !! r = Some c -> e ∈ n_cts n ->
    decryption_key_for (rorder r) c e = (c', x) -> turn_step n (moved n r c').

(** The founder of the group starts with the own leaf secret among the secrets. *)
Inductive turns : network -> Prop :=
| tn_start r id pk h c sks : cgka_from_init id pk (SignedOp h (init_add id pk)) = Ok c -> good_sks sks ->
    turns (Net {[ r := with_new_owner c id sks ]} {[ h := SignedOp h (init_add id pk) ]} [])
| tn_step n n' : turns n -> turn_step n n' -> turns n'.
End turns.

(** Who is in the group after operation [h], and with which key: the first operation and what
    followed it, read off the operations alone. *)
Definition change (g : gmap member_id share_key) (o : cgka_op) : gmap member_id share_key :=
  match o with
  | CAdd id pk _ _ _ => <[id := pk]> g
  | CRemove id _ _ _ => delete id g
  | CUpdate id pc _ => match pc_leaf_pk pc with SKey pk => <[id := pk]> g | CKeys _ _ _ => g end
  end.
Inductive roster (ops : gmap digest signed_op) : digest -> gmap member_id share_key -> Prop :=
| ro_first h id pk : ops !! h = Some (SignedOp h (init_add id pk)) -> roster ops h {[ id := pk ]}
| ro_next h g h' o : roster ops h g -> ops !! h' = Some o -> op_preds (so_op o) = {[ h ]} ->
    roster ops h' (change g (so_op o)).

(** The replica receives some of the operations made so far, one after the other. *)
Inductive receives ho ro (ops : gmap digest signed_op) : cgka -> cgka -> Prop :=
| rs_done c : receives ho ro ops c c
| rs_next c c1 c2 h op : ops !! h = Some op -> merge_concurrent_operation ho ro c op = (c1, Ok true) ->
    receives ho ro ops c1 c2 -> receives ho ro ops c c2.
