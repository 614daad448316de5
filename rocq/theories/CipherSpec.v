(** Specification vocabulary for C28 and C29. *)
From Coq Require Import Arith NArith.
From stdpp Require Import base list gmap.
From Verif Require Import SealModel SealSpec CipherModel.

(** ** C29: histories of a store *)
Inductive store_op := Insert (c : ecrypt) | Remove (c : ecrypt) | RemoveAll (r : cref).
(** The code, run over a history. *)
Definition run_op (s : mstore) (o : store_op) : mstore :=
  match o with
  | Insert c => ms_insert s c
  | Remove c => (ms_remove s c).1
  | RemoveAll r => (ms_remove_all s r).1
  end.
Definition run_ops (l : list store_op) : mstore := foldl run_op mstore_new l.
(** The ciphertexts that should be there: inserted, and not removed since. *)
Definition stored (l : list store_op) (c : ecrypt) : Prop :=
  exists before after, l = before ++ Insert c :: after /\ Remove c ∉ after /\ RemoveAll (e_ref c) ∉ after.
(** Every reference is used for a single ciphertext. *)
Definition one_per_ref (l : list store_op) : Prop :=
  forall c d, Insert c ∈ l -> Insert d ∈ l -> e_ref c = e_ref d -> c = d.
Definition no_single_removal (l : list store_op) : Prop := forall c, Remove c ∉ l.

(** ** C28: what is reachable *)
Section reach.
Context (dec : symkey -> bytes -> bytes -> option bytes) (get : cref -> fetched).
(** The ciphertext decrypts under the key, to the envelope. *)
Definition opens (c : ecrypt) (k : symkey) (e : envelope) : Prop :=
  exists b, dec k (e_nonce c) (e_bytes c) = Some b /\ deserialize b = Some e.
(** Ciphertexts with keys for them, found by following the ancestors in envelopes. *)
Inductive reached (entries : list (ecrypt * symkey)) : ecrypt -> symkey -> Prop :=
| reached_entry c k : (c, k) ∈ entries -> reached entries c k
| reached_ancestor c k e r k' c' :
    reached entries c k -> opens c k e -> en_ancestors e !! r = Some k' -> get r = Found c' ->
    reached entries c' k'.
(** The store never fails, and holds finitely many references. *)
Definition never_fails : Prop := forall r, get r <> Failed.
Definition finite_store : Prop := exists U : list cref, forall r c, get r = Found c -> e_ref c ∈ U.
(** Nobody offers two different openings for one reference. *)
Definition unambiguous (entries : list (ecrypt * symkey)) : Prop :=
  forall c k e c' k' e', reached entries c k -> reached entries c' k' -> e_ref c = e_ref c' ->
    opens c k e -> opens c' k' e' -> e = e'.
(** The answer of causal decryption from the entry points, with enough steps. *)
Definition answers (order : gmap cref symkey -> list (cref * symkey)) (entries : list (ecrypt * symkey)) (s : causal) : Prop :=
  exists fuel, causal_loop dec order get fuel causal_new (reverse entries) = Some s.
End reach.

(** Iterating over a hash set visits every element once, in any order. *)
Definition any_set_order {A} `{Countable A} (o : gset A -> list A) : Prop := forall X, o X ≡ₚ elements X.
