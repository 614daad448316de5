(** Model of content sealing and of the causal-encryption envelope:
    keyhive_crypto/src/{symmetric_key, siv, domain_separator}.rs and
    keyhive_core/src/crypto/envelope.rs, on bytes.

    The cipher (XChaCha20-Poly1305), BLAKE3 and the standard library's [DefaultHasher] are
    parameters; the bincode encoding is spelled out. *)
From Coq Require Import Arith NArith.
From stdpp Require Import base list gmap.

(** A byte is a number below 256; a byte string a list of bytes. *)
Notation bytes := (list N).
Notation cref := (list N).
Notation symkey := (list N).

(** domain_separator.rs: the bytes of "/keyhive/". *)
Definition SEPARATOR : bytes := [47; 107; 101; 121; 104; 105; 118; 101; 47]%N.
(** siv.rs 31: a nonce has 24 bytes. *)
Definition NONCE_LEN : nat := 24.

Section seal.
(** The chacha20poly1305 crate's [encrypt_in_place] and [decrypt_in_place]: key, nonce,
    associated data, buffer. *)
Context (aead_enc aead_dec : symkey -> bytes -> bytes -> bytes -> option bytes).
(** blake3's extendable output, cut to 24 bytes. *)
Context (blake24 : bytes -> bytes).

(** siv.rs 34-45 [Siv::new]: the hasher sees the concatenation. *)
Definition siv_new (key : symkey) (plaintext doc_id : bytes) : bytes :=
  blake24 (SEPARATOR ++ doc_id ++ key ++ plaintext).

(** symmetric_key.rs 52-59 [try_encrypt]. *)
Definition try_encrypt (key : symkey) (nonce data : bytes) : option bytes := aead_enc key nonce SEPARATOR data.
(** symmetric_key.rs 63-70 [try_decrypt]. *)
Definition try_decrypt (key : symkey) (nonce data : bytes) : option bytes := aead_dec key nonce SEPARATOR data.

(** symmetric_key.rs 74-87 [try_seal]: the associated data enters the nonce only. *)
Definition try_seal (key : symkey) (plaintext associated_data : bytes) : option bytes :=
  let nonce := siv_new key plaintext associated_data in
  match try_encrypt key nonce plaintext with
  | Some buf => Some (nonce ++ buf)
  | None => None
  end.
(** symmetric_key.rs 91-99 [try_open]: a blob shorter than a nonce is refused. *)
Definition try_open (key : symkey) (blob : bytes) : option bytes :=
  if length blob <? NONCE_LEN then None
  else try_decrypt key (take NONCE_LEN blob) (drop NONCE_LEN blob).
End seal.

(** ** bincode 1.3, default options of [bincode::serialize] / [bincode::deserialize]:
    fixed-width little-endian integers, lengths as [u64], trailing bytes allowed. *)
Fixpoint le (n : nat) (x : N) : bytes :=
  match n with 0 => [] | S n => (x mod 256)%N :: le n (x / 256)%N end.
Fixpoint un_le (bs : bytes) : N :=
  match bs with [] => 0%N | b :: bs => (b + 256 * un_le bs)%N end.
Definition le64 : N -> bytes := le 8.
(** Reading [n] bytes; a short input is an error. *)
Definition read_n (n : nat) (bs : bytes) : option (bytes * bytes) :=
  if length bs <? n then None else Some (take n bs, drop n bs).
Definition read_u64 (bs : bytes) : option (N * bytes) :=
  match read_n 8 bs with Some (b, rest) => Some (un_le b, rest) | None => None end.
(** [Vec<u8>]: the length, then the bytes.  The comparison is made on [N], since the length
    claimed by the input may be anything up to 2^64. *)
Definition write_vec (bs : bytes) : bytes := le64 (N.of_nat (length bs)) ++ bs.
Definition read_vec (bs : bytes) : option (bytes * bytes) :=
  match read_u64 bs with
  | Some (n, rest) => if (N.of_nat (length rest) <? n)%N then None else read_n (N.to_nat n) rest
  | None => None
  end.

(** ** The envelope *)

(** envelope.rs 81-96 [Envelope]; content references are 32-byte arrays (the crate's
    default), keys too. *)
Record envelope := Envelope { en_plain : bytes; en_ancestors : gmap cref symkey }.
Definition REF_LEN : nat := 32.

(** std [BTreeMap] from 64-bit numbers: a list sorted by key. *)
Notation btree := (list (N * (cref * symkey))).
Fixpoint bt_insert (k : N) (v : cref * symkey) (t : btree) : btree :=
  match t with
  | [] => [(k, v)]
  | (k', v') :: t' =>
      if (k <? k')%N then (k, v) :: t
      else if (k =? k')%N then (k, v) :: t'
      else (k', v') :: bt_insert k v t'
  end.
Definition bt_collect (l : list (N * (cref * symkey))) : btree := foldl (fun t kv => bt_insert kv.1 kv.2 t) [] l.

Section envelope.
(** The [DefaultHasher] of a reference, and the iteration order of a [HashMap]. *)
Context (hash64 : cref -> N).
Context (order : gmap cref symkey -> list (cref * symkey)).

(** envelope.rs 111-127 [ordered_map_serializer], up to the BTreeMap. *)
Definition ordered (m : gmap cref symkey) : btree :=
  bt_collect (map (fun kv => (hash64 kv.1, kv)) (order m)).
Definition write_entry (e : N * (cref * symkey)) : bytes := le64 e.1 ++ e.2.1 ++ e.2.2.
Definition write_map (t : btree) : bytes := le64 (N.of_nat (length t)) ++ concat (map write_entry t).
(** [bincode::serialize] of an envelope: the fields in order. *)
Definition serialize (e : envelope) : bytes := write_vec (en_plain e) ++ write_map (ordered (en_ancestors e)).
End envelope.

Definition read_entry (bs : bytes) : option ((N * (cref * symkey)) * bytes) :=
  match read_u64 bs with
  | None => None
  | Some (h, bs) =>
      match read_n REF_LEN bs with
      | None => None
      | Some (r, bs) =>
          match read_n REF_LEN bs with
          | None => None
          | Some (k, bs) => Some ((h, (r, k)), bs)
          end
      end
  end.
(** [n] entries.  Every entry takes 72 bytes, so the length of the input bounds the number
    of steps before an input that claims too many is found short. *)
Fixpoint read_entries (fuel : nat) (n : N) (bs : bytes) : option (list (N * (cref * symkey)) * bytes) :=
  if (n =? 0)%N then Some ([], bs)
  else match fuel with
       | 0 => None
       | S f =>
           match read_entry bs with
           | None => None
           | Some (e, bs) =>
               match read_entries f (n - 1) bs with
               | None => None
               | Some (l, bs) => Some (e :: l, bs)
               end
           end
       end.
(** envelope.rs 129-137 [ordered_map_deserializer]: into a BTreeMap, whose keys are then
    dropped, into a HashMap (a later entry replaces an earlier one). *)
Definition read_map (bs : bytes) : option (gmap cref symkey * bytes) :=
  match read_u64 bs with
  | None => None
  | Some (n, bs) =>
      match read_entries (length bs) n bs with
      | None => None
      | Some (l, bs) => Some (foldl (fun m e => <[e.2.1 := e.2.2]> m) ∅ (bt_collect l), bs)
      end
  end.
(** [bincode::deserialize]. *)
Definition deserialize (bs : bytes) : option envelope :=
  match read_vec bs with
  | None => None
  | Some (p, bs) =>
      match read_map bs with
      | None => None
      | Some (m, _) => Some (Envelope p m)
      end
  end.
