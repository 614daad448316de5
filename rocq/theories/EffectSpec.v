(** What a call that removes a member is for. *)
From stdpp Require Import base list gmap relations.
From Verif Require Import ResModel KeysModel TreeModel OpsModel CgkaModel NetSpec SecrecySpec ReadSpec TurnSecretSpec ShutSpec.

(** [e] was sealed with knowledge of everything in [known], and [m] was not added again in
    between. *)
Definition sealed_after (ops known : gmap digest signed_op) (m : member_id) (e : encrypted_content) : Prop :=
  (forall x, is_Some (known !! x) -> by_then ops (ec_op e) x) /\
  (forall x o pk i ps qs, by_then ops (ec_op e) x -> ops !! x = Some o -> so_op o = CAdd m pk i ps qs -> is_Some (known !! x)).
(** These secrets came with operations about [m], if with any. *)
Definition only_of (ops : gmap digest signed_op) (m : member_id) (K : secret_key -> Prop) : Prop :=
  forall s x o, K s -> ops !! x = Some o -> s ∈ secrets (so_op o) -> about (so_op o) = m.
