(** Model of beekem/src/keys.rs, beekem/src/secret_store.rs and the symbolic part of
    beekem/src/encrypted.rs and keyhive_crypto/src/share_key.rs. *)
From stdpp Require Import base list gmap.
From Verif Require Import ResModel.

(** ** Symbolic key pairs (keyhive_crypto/src/share_key.rs)

    A key pair is represented by a number: the secret key [s] has the public key
    [pub s].  Public keys are compared and sorted as numbers; which number a key pair
    gets is arbitrary.  Nothing in the model computes a secret key from a public key:
    secrecy is expressed by the derivations of [SecrecySpec]. *)
Notation share_key := nat (only parsing).
Notation secret_key := nat (only parsing).
(** share_key.rs [ShareSecretKey::share_key]. *)
Definition pub (s : secret_key) : share_key := s.

(** share_key.rs 126-132 [derive_symmetric_key]: Diffie-Hellman, so the key made from
    my secret and your public key is the one made from your secret and my public key.
    Symbolically: the unordered pair of the two key pairs. *)
Definition dh_key : Type := nat * nat.
Definition derive_symmetric_key (s : secret_key) (p : share_key) : dh_key :=
  (Nat.min (pub s) p, Nat.max (pub s) p).

(** encrypted.rs 74-86 [EncryptedSecret<ShareSecretKey>].  The ciphertext is
    represented by the symmetric key and the plaintext it was made from; the nonce is
    stored next to the ciphertext and always handed back to the decryption, so it is
    left out. *)
Record enc_secret := EncSecret { es_key : dh_key; es_msg : secret_key; es_paired : share_key }.

(** encrypted.rs 135-147 [encrypt_secret]. *)
Definition encrypt_secret (secret : secret_key) (s : secret_key) (paired : share_key) : enc_secret :=
  EncSecret (derive_symmetric_key s paired) secret paired.

(** symmetric_key.rs [try_decrypt]: an AEAD opens only under the key that sealed it. *)
Definition sym_decrypt (k : dh_key) (e : enc_secret) : res secret_key :=
  if decide (k = es_key e) then Ok (es_msg e) else Err EDecryption.

(** encrypted.rs 101-110 [try_encrypter_decrypt]. *)
Definition try_encrypter_decrypt (e : enc_secret) (encrypter_sk : secret_key) : res secret_key :=
  sym_decrypt (derive_symmetric_key encrypter_sk (es_paired e)) e.

(** ** keys.rs *)

(** keys.rs 16 [ShareKeyMap]. *)
Notation sk_map := (gmap share_key secret_key).

(** keys.rs 35-48 [try_decrypt_encryption]. *)
Definition try_decrypt_encryption (sks : sk_map) (encrypter_pk : share_key) (e : enc_secret) : res secret_key :=
  let! s := ok_or (sks !! es_paired e) ESecretKeyNotFound in
  sym_decrypt (derive_symmetric_key s encrypter_pk) e.

(** keys.rs 60-62 [extend] and 73-77 [merge]: entries of the argument win. *)
Definition sk_extend (sks other : sk_map) : sk_map := other ∪ sks.

(** keys.rs 88-91 and 102-106 [NodeKey], [ConflictKeys]. *)
Inductive node_key :=
| SKey (k : share_key)
| CKeys (first second : share_key) (more : list share_key).
Global Instance node_key_eq_dec : EqDecision node_key.
Proof. solve_decision. Defined.

(** keys.rs 144-149 [NodeKey::keys] (with 135-141). *)
Definition nk_keys (n : node_key) : list share_key :=
  match n with
  | SKey k => [k]
  | CKeys a b more => a :: b :: more
  end.

(** keys.rs 152-157 and 118-120 [len]. *)
Definition nk_len (n : node_key) : nat :=
  match n with
  | SKey _ => 1
  | CKeys _ _ more => 2 + length more
  end.

(** keys.rs 159-164 and 113-115 [contains_key]. *)
Definition nk_contains (n : node_key) (k : share_key) : bool :=
  match n with
  | SKey p => bool_decide (k = p)
  | CKeys a b more => bool_decide (a = k) || bool_decide (b = k) || bool_decide (k ∈ more)
  end.

(** [slice::sort] on share keys (keys.rs 182, 209). *)
Fixpoint insert_sorted (k : share_key) (l : list share_key) : list share_key :=
  match l with
  | [] => [k]
  | x :: l' => if k <=? x then k :: l else x :: insert_sorted k l'
  end.
Fixpoint sort_keys (l : list share_key) : list share_key :=
  match l with
  | [] => []
  | x :: l' => insert_sorted x (sort_keys l')
  end.

(** The slice pattern match of keys.rs 184-199, 211-226 and secret_store.rs 49-70.
    The empty slice is [unreachable!]. *)
Definition nk_of_list (l : list share_key) : res node_key :=
  match l with
  | [] => Panic
  | [a] => Ok (SKey a)
  | a :: b :: more => Ok (CKeys a b more)
  end.

(** keys.rs 174-229 [NodeKey::merge]. *)
Definition nk_merge (self new_key : node_key) (removed : list share_key) : res node_key :=
  match self with
  | SKey k =>
      if decide (k ∈ removed) then Ok new_key
      else nk_of_list (sort_keys (nk_keys new_key ++ [k]))
  | CKeys _ _ _ =>
      nk_of_list (sort_keys (nk_keys new_key ++ filter (fun k => k ∉ removed) (nk_keys self)))
  end.

(** ** secret_store.rs *)

(** secret_store.rs 107-116 [SecretStoreVersion]; the [BTreeMap] is a [gmap] from tree
    index to encrypted secret (its order is never observed). *)
Record version := Version {
  v_pk : share_key;
  v_sk : gmap nat enc_secret;
  v_encrypter : share_key
}.

(** secret_store.rs 17-23 [SecretStore]. *)
Definition store := list version.

(** secret_store.rs 26-39 [new]. *)
Definition store_new (pk encrypter : share_key) (sk : gmap nat enc_secret) : store :=
  [Version pk sk encrypter].

(** secret_store.rs 41-43 [has_conflict]. *)
Definition has_conflict (s : store) : bool := 1 <? length s.

(** secret_store.rs 45-72 [node_key]. *)
Definition store_node_key (s : store) : res node_key := nk_of_list (map v_pk s).

(** secret_store.rs 91-102 [remove_keys_from] (the early return on an empty set is the
    identity, as is the filter). *)
Definition remove_keys_from (s : store) (removed : list share_key) : store :=
  filter (fun v => v_pk v ∉ removed) s.

(** secret_store.rs 86-89 [merge]. *)
Definition store_merge (self other : store) (removed : list share_key) : store :=
  remove_keys_from self removed ++ other.

(** secret_store.rs 126-139: the last seen index if the version has an entry for it,
    otherwise the latest earlier one. *)
Definition lookup_seen (m : gmap nat enc_secret) (seen : list nat) : option enc_secret :=
  foldl (fun acc i => match m !! i with Some e => Some e | None => acc end) None seen.

(** secret_store.rs 119-159 [SecretStoreVersion::decrypt_secret]. *)
Definition version_decrypt (v : version) (child_key : node_key) (sks : sk_map) (seen : list nat) : res secret_key :=
  let is_encrypter := nk_contains child_key (v_encrypter v) in
  let! e := ok_or (lookup_seen (v_sk v) seen) EEncryptedSecretNotFound in
  if is_encrypter then
    let! s := ok_or (sks !! v_encrypter v) ESecretKeyNotFound in
    try_encrypter_decrypt e s
  else try_decrypt_encryption sks (v_encrypter v) e.

(** secret_store.rs 74-84 [SecretStore::decrypt_secret]. *)
Definition store_decrypt (s : store) (child_key : node_key) (sks : sk_map) (seen : list nat) : res secret_key :=
  if has_conflict s then Err EUnexpectedKeyConflict
  else match s with
       | [] => Panic
       | v :: _ => version_decrypt v child_key sks seen
       end.
