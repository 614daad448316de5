(** Model of prekeys: keyhive_core/src/principal/individual.rs, individual/{op, state}.rs,
    principal/active.rs, and the prekey parts of keyhive.rs.

    Signatures are symbolic: [ko_signer] is the key that really made the signature and
    [ko_signed] the payload it was made for.  Digests are collision free, so a [CaMap] of
    operations (util/content_addressed_map.rs) is the set of the operations in it. *)
From Coq Require Import Arith NArith.
From stdpp Require Import base list gmap.
From Verif Require Import AccessModel GroupModel.

(** keyhive_crypto/src/share_key.rs [ShareKey]. *)
Notation pubkey := nat.

(** ** Operations *)

(** op/add_key.rs 8-11 [AddKeyOp] and op/rotate_key.rs 8-14 [RotateKeyOp]. *)
Inductive kpay := AddKey (k : pubkey) | RotateKey (old new : pubkey).
(** op.rs 28-34 [KeyOp], with signed.rs 24-34 [Signed]. *)
Record keyop := KOp { ko_issuer : ident; ko_pay : kpay; ko_signer : ident; ko_signed : kpay }.

Global Instance kpay_eq_dec : EqDecision kpay.
Proof. solve_decision. Defined.
Global Instance kpay_countable : Countable kpay.
Proof.
  apply (inj_countable' (fun p => match p with AddKey k => inl k | RotateKey a b => inr (a, b) end)
                        (fun x => match x with inl k => AddKey k | inr (a, b) => RotateKey a b end)).
  intros []; reflexivity.
Defined.
Global Instance keyop_eq_dec : EqDecision keyop.
Proof. solve_decision. Defined.
Global Instance keyop_countable : Countable keyop.
Proof.
  apply (inj_countable' (fun o => (ko_issuer o, ko_pay o, ko_signer o, ko_signed o))
                        (fun x => let '(a, b, c, d) := x in KOp a b c d)).
  intros []; reflexivity.
Defined.

(** op.rs 70-75 [new_key]. *)
Definition new_key (o : keyop) : pubkey := match ko_pay o with AddKey k => k | RotateKey _ k => k end.
(** The key that a rotation replaces. *)
Definition old_key (o : keyop) : option pubkey := match ko_pay o with AddKey _ => None | RotateKey k _ => Some k end.
Definition is_add (o : keyop) : bool := match ko_pay o with AddKey _ => true | RotateKey _ _ => false end.
(** op.rs 77-82 and signed.rs 164-170 [try_verify]. *)
Definition verifies (o : keyop) : bool := (ko_signer o =? ko_issuer o) && bool_decide (ko_signed o = ko_pay o).
(** A signature made with the key [i] (signer/async_signer.rs [try_sign_async]). *)
Definition sign (i : ident) (p : kpay) : keyop := KOp i p i p.

(** op.rs 37-68 [topsort].  [l] is [key_ops.values()] in iteration order, the head of [heads]
    the top of the stack; [None] when the fuel does not suffice (the code has no bound). *)
Definition rotations_of (l : list keyop) (k : pubkey) : list keyop := filter (fun o => old_key o = Some k) l.
Fixpoint topsort_loop (fuel : nat) (l heads acc : list keyop) : option (list keyop) :=
  match heads with
  | [] => Some acc
  | h :: heads =>
      match fuel with
      | 0 => None
      | S f => topsort_loop f l (reverse (rotations_of l (new_key h)) ++ heads) (acc ++ [h])
      end
  end.
Definition key_topsort (fuel : nat) (l : list keyop) : option (list keyop) :=
  topsort_loop fuel l (reverse (filter (fun o => is_add o = true) l)) [].

(** ** Prekey state *)

(** state.rs 125-146 [build]; a union and a difference of sets, so that the iteration order does
    not matter. *)
Definition build (ops : gset keyop) : gset pubkey :=
  list_to_set (map new_key (elements ops)) ∖ list_to_set (omap old_key (elements ops)).

(** individual.rs 36-63 [Individual]; [in_ops] is the [PrekeyState]. *)
Record individual := Individual { in_id : ident; in_prekeys : gset pubkey; in_ops : gset keyop }.

(** individual.rs 67-76 [Individual::new]: the signature is not checked. *)
Definition individual_new (o : keyop) : individual := Individual (ko_issuer o) (build {[ o ]}) {[ o ]}.

(** individual.rs 181-188 [ReceivePrekeyOpError]. *)
Inductive kerror := EIncorrectSigner | EVerification.

(** individual.rs 108-116 [receive_prekey_op], state.rs 113-117 [insert_op]. *)
Definition receive_key (x : individual) (o : keyop) : individual * option kerror :=
  if negb (ko_issuer o =? in_id x) then (x, Some EIncorrectSigner)
  else if negb (verifies o) then (x, Some EVerification)
  else (Individual (in_id x) (build ({[ o ]} ∪ in_ops x)) ({[ o ]} ∪ in_ops x), None).

(** individual.rs 174-179 [merge] and content_addressed_map.rs 119-125: nothing is checked. *)
Definition merge_individual (x y : individual) : individual :=
  Individual (in_id x) (build (in_ops x ∪ in_ops y)) (in_ops x ∪ in_ops y).

(** individual.rs 119-127, 191-231 [pick_prekey].  [stream n] is the [n]-th group of eight bytes
    of the hash stream, read big-endian.  On a 64 bit little-endian target [usize::from_be] reverses
    the eight bytes; on a 32 bit one the cast keeps the lowest four bytes and reverses those. *)
Inductive target := T64 | T32.
(** Reverses the lowest [n] bytes. *)
Fixpoint swap_bytes (n : nat) (x acc : N) : N :=
  match n with
  | 0 => acc
  | S n => swap_bytes n (x / 256)%N (acc * 256 + x mod 256)%N
  end.
(** individual.rs 191-197 [clamp]; [checked_shl] is [None] from 64 on. *)
Definition clamp (t : target) (x : N) (off : N) : N :=
  let bound := (if 64 <=? off then 0 else (x * 2 ^ off) mod 2 ^ 64)%N in
  match t with
  | T64 => swap_bytes 8 bound 0
  | T32 => swap_bytes 4 (bound mod 2 ^ 32)%N 0
  end.
(** individual.rs 199-231 [pseudorandom_in_range]; [n] counts the groups already read. *)
Fixpoint resample (fuel : nat) (t : target) (stream : nat -> N) (shift max : N) (n : nat) : option N :=
  match fuel with
  | 0 => None
  | S f => let raw := clamp t (stream n) shift in
           if (raw <=? max)%N then Some raw else resample f t stream shift max (S n)
  end.
Definition pseudorandom_in_range (fuel : nat) (t : target) (stream : nat -> N) (max : N) : option N :=
  resample fuel t stream (64 - N.log2 max)%N max 0.
(** [l]: the prekeys in iteration order.  [None]: still sampling; [Some None]: the [expect] of line
    126 panics. *)
Definition pick_prekey (fuel : nat) (t : target) (stream : nat -> N) (l : list pubkey) : option (option pubkey) :=
  match pseudorandom_in_range fuel t stream (N.of_nat (length l)) with
  | None => None
  | Some i => Some (l !! N.to_nat i)
  end.

(** ** The active agent *)

(** active.rs 47-71 [Active]: the public halves of [prekey_pairs], and the individual. *)
Record active := Active { ac_pairs : gset pubkey; ac_ind : individual }.

(** active.rs 82-139 [generate]: [k] and [ks] are the generated keys (six in the code). *)
Definition active_generate (i : ident) (k : pubkey) (ks : list pubkey) : active :=
  let ops := list_to_set (map (fun k => sign i (AddKey k)) (k :: ks)) : gset keyop in
  Active (list_to_set (k :: ks)) (Individual i (build ops) ops).
(** active.rs 178-220 [rotate_prekey] with the generated key [new]. *)
Definition active_rotate (a : active) (old new : pubkey) : active * keyop :=
  let x := ac_ind a in
  let o := sign (in_id x) (RotateKey old new) in
  (Active ({[ new ]} ∪ ac_pairs a)
          (Individual (in_id x) ({[ new ]} ∪ (in_prekeys x ∖ {[ old ]})) ({[ o ]} ∪ in_ops x)), o).
(** active.rs 223-263 [expand_prekeys]. *)
Definition active_expand (a : active) (new : pubkey) : active * keyop :=
  let x := ac_ind a in
  let o := sign (in_id x) (AddKey new) in
  (Active ({[ new ]} ∪ ac_pairs a)
          (Individual (in_id x) ({[ new ]} ∪ in_prekeys x) ({[ o ]} ∪ in_ops x)), o).

(** ** Prekeys in the client *)

(** keyhive.rs 84-127 [Keyhive], as far as prekeys go.  The entry of the active agent in
    [individuals] and [active.individual] are one shared object (keyhive.rs 187-193).  A group or
    document carries an individual or only its identifier (group.rs [IdOrIndividual]). *)
Record kstore := KStore {
  ks_active : ident;
  ks_public : ident;
  ks_indies : gmap ident individual;
  ks_docs : gmap ident (option individual);
  ks_groups : gmap ident (option individual)
}.

Definition set_indie (s : kstore) (i : ident) (x : individual) : kstore :=
  KStore (ks_active s) (ks_public s) (<[i := x]> (ks_indies s)) (ks_docs s) (ks_groups s).
Definition set_doc (s : kstore) (i : ident) (x : individual) : kstore :=
  KStore (ks_active s) (ks_public s) (ks_indies s) (<[i := Some x]> (ks_docs s)) (ks_groups s).
Definition set_group (s : kstore) (i : ident) (x : individual) : kstore :=
  KStore (ks_active s) (ks_public s) (ks_indies s) (ks_docs s) (<[i := Some x]> (ks_groups s)).

(** keyhive.rs 1537-1586 [receive_prekey_op] and 1394-1426 [get_agent]. *)
Definition receive_prekey_op (s : kstore) (o : keyop) : kstore * option kerror :=
  let i := ko_issuer o in
  if i =? ks_public s then (s, None)
  else if i =? ks_active s then
    match ks_indies s !! i with
    | Some x => let '(x, e) := receive_key x o in (set_indie s i x, e)
    | None => (s, None)
    end
  else match ks_docs s !! i with
  | Some (Some x) => let '(x, e) := receive_key x o in (set_doc s i x, e)
  | Some None => (set_doc s i (individual_new o), None)
  | None =>
      match ks_groups s !! i with
      | Some (Some x) => let '(x, e) := receive_key x o in (set_group s i x, e)
      | Some None => (set_group s i (individual_new o), None)
      | None =>
          let x := match ks_indies s !! i with Some x => x | None => individual_new o end in
          let '(x, e) := receive_key x o in (set_indie s i x, e)
      end
  end.
(** keyhive.rs 342-368 [receive_contact_card] and 419-431 [register_individual]. *)
Definition receive_contact_card (s : kstore) (o : keyop) : kstore * option kerror :=
  let i := ko_issuer o in
  match ks_indies s !! i with
  | Some x => let '(x, e) := receive_key x o in (set_indie s i x, e)
  | None => (set_indie s i (individual_new o), None)
  end.
(** agent.rs 184-206 [key_ops] of the agent with this identifier. *)
Definition key_ops (s : kstore) (i : ident) : gset keyop :=
  if i =? ks_active s then match ks_indies s !! i with Some x => in_ops x | None => ∅ end
  else match ks_docs s !! i with
  | Some x => match x with Some x => in_ops x | None => ∅ end
  | None => match ks_groups s !! i with
            | Some x => match x with Some x => in_ops x | None => ∅ end
            | None => match ks_indies s !! i with Some x => in_ops x | None => ∅ end
            end
  end.
