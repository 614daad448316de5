(** Specification vocabulary for C30: what is asked of the cipher and of its inputs. *)
From Coq Require Import Arith NArith.
From stdpp Require Import base list gmap.
From Verif Require Import SealModel.

(** A deterministic authenticated cipher: the ciphertexts that open to [p] under a key, nonce
    and associated data are the encryption of [p], and nothing else; a tag of 16 bytes is added. *)
Record cipher_ok (enc dec : symkey -> bytes -> bytes -> bytes -> option bytes) : Prop := {
  ok_opens : forall k n a p c, enc k n a p = Some c -> dec k n a c = Some p;
  ok_only : forall k n a p c, dec k n a c = Some p -> enc k n a p = Some c;
  ok_length : forall k n a p c, enc k n a p = Some c -> length c = length p + 16
}.
(** A hash with 24 bytes of output, and a collision of it. *)
Definition hash24_ok (h : bytes -> bytes) : Prop := forall x, length (h x) = 24.
Definition collision (h : bytes -> bytes) : Prop := exists x y, x <> y /\ h x = h y.

(** Iterating over a hash map visits every entry once, in any order. *)
Definition any_order (order : gmap cref symkey -> list (cref * symkey)) : Prop :=
  forall m, order m ≡ₚ map_to_list m.
(** A 64-bit hash. *)
Definition hash64_ok (h : cref -> N) : Prop := forall r, (h r < 2 ^ 64)%N.
(** An envelope that fits the types: 32-byte references and keys, sizes that fit 64 bits. *)
Definition fits (e : envelope) : Prop :=
  (forall r k, en_ancestors e !! r = Some k -> length r = 32 /\ length k = 32) /\
  (N.of_nat (length (en_plain e)) < 2 ^ 64)%N /\ (N.of_nat (size (en_ancestors e)) < 2 ^ 64)%N.
(** No two ancestors of the envelope have the same hash. *)
Definition distinct_hashes (h : cref -> N) (e : envelope) : Prop :=
  forall r1 r2, r1 ∈ dom (en_ancestors e) -> r2 ∈ dom (en_ancestors e) -> h r1 = h r2 -> r1 = r2.
