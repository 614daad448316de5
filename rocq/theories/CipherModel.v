(** Model of the ciphertext store and of causal decryption:
    keyhive_core/src/store/ciphertext.rs, store/ciphertext/memory.rs and
    keyhive_core/src/principal/document.rs 537-577.

    The [async] methods are run to completion without interleaving other users of the store. *)
From Coq Require Import Arith NArith.
From stdpp Require Import base list gmap.
From Verif Require Import SealModel.

(** beekem/src/encrypted.rs 22-39 [EncryptedContent]. *)
Record ecrypt := Ecrypt {
  e_nonce : bytes; e_bytes : bytes; e_pcs : N; e_op : N; e_ref : cref; e_preds : N
}.
Global Instance ecrypt_eq_dec : EqDecision ecrypt.
Proof. solve_decision. Defined.
Global Instance ecrypt_countable : Countable ecrypt.
Proof.
  apply (inj_countable (fun c => [e_nonce c; e_bytes c; [e_pcs c]; [e_op c]; e_ref c; [e_preds c]])
                       (fun x => match x with [a; b; [c]; [d]; e; [f]] => Some (Ecrypt a b c d e f) | _ => None end)).
  intros []; reflexivity.
Defined.

(** ** The in-memory store *)

(** memory.rs 27-34 [MemoryCiphertextStoreInner].  Digests of ciphertexts are collision
    free: the ciphertext is its own digest, so the third map is the set of the ciphertexts
    in it (the size next to each is the length of its bytes). *)
Record mstore := MStore {
  ms_ops : gmap N (gset cref);
  ms_refs : gmap cref (gset ecrypt);
  ms_store : gset ecrypt
}.
Definition mstore_new : mstore := MStore ∅ ∅ ∅.

Section store.
(** The iteration order of hash sets. *)
Context (eorder : gset ecrypt -> list ecrypt) (rorder : gset cref -> list cref).

(** [Iterator::max_by_key] by size: the last of the largest. *)
Fixpoint largest (best : option ecrypt) (l : list ecrypt) : option ecrypt :=
  match l with
  | [] => best
  | c :: l =>
      match best with
      | Some b => if length (e_bytes c) <? length (e_bytes b) then largest (Some b) l else largest (Some c) l
      | None => largest (Some c) l
      end
  end.

(** memory.rs 47-61 [get_by_content_ref]: nothing when one of the digests is not stored. *)
Definition get_by_content_ref (s : mstore) (r : cref) : option ecrypt :=
  match ms_refs s !! r with
  | None => None
  | Some ds =>
      if forallb (fun d => bool_decide (d ∈ ms_store s)) (eorder ds) then largest None (eorder ds) else None
  end.

(** memory.rs 64-87 [get_by_pcs_update]. *)
Definition get_by_pcs_update (s : mstore) (op : N) : list ecrypt :=
  match ms_ops s !! op with
  | None => []
  | Some rs =>
      concat (map (fun r => match ms_refs s !! r with
                            | None => []
                            | Some ds => filter (fun d => d ∈ ms_store s) (eorder ds)
                            end) (rorder rs))
  end.
End store.

(** memory.rs 90-116 [insert]. *)
Definition ms_insert (s : mstore) (c : ecrypt) : mstore :=
  if bool_decide (c ∈ ms_store s) then s
  else MStore (<[e_op c := {[e_ref c]} ∪ default ∅ (ms_ops s !! e_op c)]> (ms_ops s))
              (<[e_ref c := {[c]} ∪ default ∅ (ms_refs s !! e_ref c)]> (ms_refs s))
              ({[c]} ∪ ms_store s).

(** memory.rs 129-165 [remove]; the [?] after the first index returns early. *)
Definition ms_remove (s : mstore) (d : ecrypt) : mstore * option ecrypt :=
  if bool_decide (d ∈ ms_store s) then
    let store := ms_store s ∖ {[d]} in
    match ms_ops s !! e_op d with
    | None => (MStore (ms_ops s) (ms_refs s) store, None)
    | Some rs =>
        let rs := rs ∖ {[e_ref d]} in
        let ops := if bool_decide (rs = ∅) then delete (e_op d) (ms_ops s) else <[e_op d := rs]> (ms_ops s) in
        let refs := match ms_refs s !! e_ref d with
                    | None => ms_refs s
                    | Some ds =>
                        let ds := ds ∖ {[d]} in
                        if bool_decide (ds = ∅) then delete (e_ref d) (ms_refs s) else <[e_ref d := ds]> (ms_refs s)
                    end in
        (MStore ops refs store, Some d)
    end
  else (s, None).

(** memory.rs 168-178 [remove_all]. *)
Definition ms_remove_all (s : mstore) (r : cref) : mstore * bool :=
  match ms_refs s !! r with
  | Some ds => (MStore (ms_ops s) (delete r (ms_refs s)) (ms_store s ∖ ds), true)
  | None => (s, false)
  end.

(** ** Causal decryption *)

(** What [CiphertextStore::get_ciphertext] answers. *)
Inductive fetched := Failed | Absent | Found (c : ecrypt).
(** ciphertext.rs [ErrorReason], without the payloads. *)
Inductive reason := DecryptionFailed | DeserializationFailed | GetCiphertextError | MarkDecryptedError.

(** ciphertext.rs 246-250 [CausalDecryptionState], the map [cannot] and the local [seen]. *)
Record causal := Causal {
  cd_complete : list (cref * bytes);
  cd_keys : gmap cref symkey;
  cd_next : gmap cref symkey;
  cd_cannot : gmap cref reason;
  cd_seen : gset cref
}.
Definition causal_new : causal := Causal [] ∅ ∅ ∅ ∅.

Section causal.
Context (dec : symkey -> bytes -> bytes -> option bytes).
Context (order : gmap cref symkey -> list (cref * symkey)).
Context (get : cref -> fetched).

(** encrypted.rs 62-66 [try_decrypt], then [bincode::deserialize]. *)
Definition open_envelope (c : ecrypt) (k : symkey) : reason + envelope :=
  match dec k (e_nonce c) (e_bytes c) with
  | None => inl DecryptionFailed
  | Some b => match deserialize b with Some e => inr e | None => inl DeserializationFailed end
  end.

(** ciphertext.rs 197-219: one ancestor.  The head of the list is the top of the stack. *)
Definition visit_ancestor (r : cref) (acc : causal * list (ecrypt * symkey)) (a : cref * symkey)
    : causal * list (ecrypt * symkey) :=
  let '(s, stack) := acc in
  match get a.1 with
  | Failed =>
      (Causal (cd_complete s) (cd_keys s) (cd_next s) (<[r := GetCiphertextError]> (cd_cannot s)) (cd_seen s ∖ {[r]}), stack)
  | Absent =>
      (Causal (cd_complete s) (cd_keys s) (<[a.1 := a.2]> (cd_next s)) (cd_cannot s) (cd_seen s), stack)
  | Found c => (s, (c, a.2) :: stack)
  end.

(** ciphertext.rs 172-228: one turn of the loop, for the popped item. *)
Definition causal_step (s : causal) (c : ecrypt) (k : symkey) (stack : list (ecrypt * symkey))
    : causal * list (ecrypt * symkey) :=
  let r := e_ref c in
  if bool_decide (r ∈ cd_seen s) then (s, stack)
  else
    let keys := <[r := k]> (cd_keys s) in
    match open_envelope c k with
    | inl e => (Causal (cd_complete s) keys (cd_next s) (<[r := e]> (cd_cannot s)) (cd_seen s), stack)
    | inr env =>
        let '(s, stack) :=
          foldl (visit_ancestor r)
                (Causal (cd_complete s) keys (cd_next s) (cd_cannot s) ({[r]} ∪ cd_seen s), stack)
                (order (en_ancestors env)) in
        (Causal (cd_complete s ++ [(r, en_plain env)]) (cd_keys s) (cd_next s) (cd_cannot s) (cd_seen s), stack)
    end.

(** ciphertext.rs 172-229: the loop; [None] when the fuel does not suffice (the code has no bound). *)
Fixpoint causal_loop (fuel : nat) (s : causal) (stack : list (ecrypt * symkey)) : option causal :=
  match stack with
  | [] => Some s
  | (c, k) :: stack =>
      match fuel with
      | 0 => None
      | S f => let '(s, stack) := causal_step s c k stack in causal_loop f s stack
      end
  end.

(** ciphertext.rs 237-241: the answer is [Ok] exactly when nothing failed. *)
Definition causal_ok (s : causal) : bool := bool_decide (cd_cannot s = ∅).
End causal.

(** ciphertext.rs 158-243 [try_causal_decrypt] for the in-memory store (306-330), which never
    fails; the caller's vector is popped from its end. *)
Definition mget (eorder : gset ecrypt -> list ecrypt) (s : mstore) (r : cref) : fetched :=
  match get_by_content_ref eorder s r with Some c => Found c | None => Absent end.
Definition mark_all (s : mstore) (l : list cref) : mstore := foldl (fun s r => (ms_remove_all s r).1) s l.
Definition try_causal_decrypt dec order eorder (fuel : nat) (s : mstore) (to_decrypt : list (ecrypt * symkey))
    : option (mstore * causal) :=
  match causal_loop dec order (mget eorder s) fuel causal_new (reverse to_decrypt) with
  | None => None
  | Some p => Some (mark_all s (map fst (cd_complete p)), p)
  end.

(** document.rs 537-577 [try_causal_decrypt_content], from the point where the entry point
    [entry] has been decrypted to [raw].  The map [next] collected here (line 571) belongs to a state
    that is then dropped; the answer is the one of the store. *)
Definition try_causal_decrypt_content dec order eorder (fuel : nat) (s : mstore) (entry : cref) (raw : bytes)
    : option (mstore * causal) :=
  match deserialize raw with
  | None => Some (s, Causal [] ∅ ∅ {[ entry := DeserializationFailed ]} ∅)
  | Some env =>
      let to_decrypt :=
        foldl (fun acc a => match mget eorder s a.1 with Found c => acc ++ [(c, a.2)] | _ => acc end)
              [] (order (en_ancestors env)) in
      try_causal_decrypt dec order eorder fuel s to_decrypt
  end.
