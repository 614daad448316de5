(** What an attacker can derive from published ciphertexts. *)
From stdpp Require Import base list gmap.
From Verif Require Import ResModel KeysModel TreeModel TreeSpec.

(** Symbolic (Dolev-Yao) derivation of secret keys.  The attacker starts from the
    secrets in [K], sees every ciphertext in [log] and every public key, can combine any
    known secret with any public key into a Diffie-Hellman key, and opens a ciphertext
    exactly when holding the key it was sealed under. *)
Inductive derivable (K : secret_key -> Prop) (log : enc_secret -> Prop) : secret_key -> Prop :=
| derivable_known s : K s -> derivable K log s
| derivable_open e s p :
    log e -> derivable K log s -> es_key e = derive_symmetric_key s p ->
    derivable K log (es_msg e).

(** The ciphertexts in a list of published path changes. *)
Definition published (pcs : list path_change) (e : enc_secret) : Prop :=
  exists pc i st v x, pc ∈ pcs /\ (i, st) ∈ pc_path pc /\ v ∈ st /\ v_sk v !! x = Some e.

(** The secrets an operation introduces: the leaf secret of the member it is about and,
    for an update, everything its random generator produced. *)
Definition op_member (op : tree_op) : member_id :=
  match op with OAdd id _ => id | ORemove id => id | OUpdate id _ _ => id end.
Definition op_rng (op : tree_op) : list secret_key :=
  match op with OUpdate _ _ rng => rng | _ => [] end.
Definition op_leaf_secret (op : tree_op) (s : secret_key) : Prop :=
  match op with OAdd _ pk => pub s = pk | ORemove _ => False | OUpdate _ sk _ => s = sk end.
Definition op_secret (op : tree_op) (s : secret_key) : Prop := op_leaf_secret op s \/ s ∈ op_rng op.

(** Operation [n] is superseded when a later operation removes its member or updates
    that member's path. *)
Definition superseded (ops : list tree_op) (n : nat) : Prop :=
  exists op n' op', ops !! n = Some op /\ n < n' /\ ops !! n' = Some op' /\
    (op' = ORemove (op_member op) \/ exists sk rng, op' = OUpdate (op_member op) sk rng).

(** The random generators never produce the same secret twice, nor one that is also used
    as a leaf secret. *)
Definition fresh_history (ops : list tree_op) : Prop :=
  NoDup (concat (map op_rng ops)) /\
  (forall op s, op ∈ ops -> op_leaf_secret op s -> s ∉ concat (map op_rng ops)).
