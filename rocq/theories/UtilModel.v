(** Model of the small containers: keyhive_core/src/listener/{deque, log}.rs,
    keyhive_core/src/util/content_addressed_map.rs (and its copy in beekem/src),
    keyhive_crypto/src/digest.rs (counting zeros) and keyhive_core/src/transact*.rs.

    The queues and logs live behind an async mutex that each operation takes once and releases
    before it returns, so operations are atomic and a run is a list of them. *)
From Coq Require Import Arith NArith.
From stdpp Require Import base list gmap.

(** ** Queues and logs *)
Section queues.
Context {Ev : Type}.

(** deque.rs 32-55: the operations of a queue. A clone (76-92) is another handle on the same
    queue, so the operations of all handles are one sequence. *)
Inductive qop := QPush (e : Ev) | QPopLatest | QPopEarliest | QIsEmpty | QClear.
(** What an operation returns. *)
Inductive qres := RUnit | REvent (e : option Ev) | RBool (b : bool) | RLen (n : nat).

(** std: [VecDeque::pop_front], [VecDeque::pop_back] and [Vec::pop] on the front-to-back list. *)
Definition pop_front (q : list Ev) : option Ev * list Ev :=
  match q with [] => (None, []) | e :: q => (Some e, q) end.
Definition pop_back (q : list Ev) : option Ev * list Ev :=
  match reverse q with [] => (None, []) | e :: q => (Some e, reverse q) end.

(** deque.rs 32-35 [push] appends at the back; 37-40 [pop_latest] takes from the front;
    42-45 [pop_earliest] takes from the back; 47-50 [is_empty]; 52-55 [clear]. *)
Definition deque_step (q : list Ev) (o : qop) : qres * list Ev :=
  match o with
  | QPush e => (RUnit, q ++ [e])
  | QPopLatest => let '(r, q) := pop_front q in (REvent r, q)
  | QPopEarliest => let '(r, q) := pop_back q in (REvent r, q)
  | QIsEmpty => (RBool (match q with [] => true | _ => false end), q)
  | QClear => (RUnit, [])
  end.
(** A new queue is empty (28-30); results are given in order. *)
Fixpoint deque_run (q : list Ev) (os : list qop) : list qres * list Ev :=
  match os with
  | [] => ([], q)
  | o :: os =>
      let '(r, q) := deque_step q o in
      let '(rs, q) := deque_run q os in (r :: rs, q)
  end.

(** log.rs 34-57: [push] appends, [pop] takes the last, [is_empty], [clear], [len]. *)
Inductive lop := LPush (e : Ev) | LPop | LIsEmpty | LClear | LLen.
Definition log_step (l : list Ev) (o : lop) : qres * list Ev :=
  match o with
  | LPush e => (RUnit, l ++ [e])
  | LPop => let '(r, l) := pop_back l in (REvent r, l)
  | LIsEmpty => (RBool (match l with [] => true | _ => false end), l)
  | LClear => (RUnit, [])
  | LLen => (RLen (length l), l)
  end.
Fixpoint log_run (l : list Ev) (os : list lop) : list qres * list Ev :=
  match os with
  | [] => ([], l)
  | o :: os =>
      let '(r, l) := log_step l o in
      let '(rs, l) := log_run l os in (r :: rs, l)
  end.
End queues.
Arguments qop : clear implicits.
Arguments lop : clear implicits.
Arguments qres : clear implicits.

(** ** Content-addressed maps *)
Section camap.
Context {K V : Type} `{Countable K}.
(** [Digest::hash] of the serialised value. *)
Context (hash : V -> K).

(** content_addressed_map.rs 33-37 [insert]: overwrites. *)
Definition ca_insert (v : V) (m : gmap K V) : K * gmap K V := (hash v, <[hash v := v]> m).
(** 40-44 [insert_checked]. *)
Definition ca_insert_checked (v : V) (m : gmap K V) : (K * bool) * gmap K V :=
  ((hash v, match m !! hash v with None => true | Some _ => false end), <[hash v := v]> m).
(** 47-49 [remove_by_hash]. *)
Definition ca_remove_by_hash (k : K) (m : gmap K V) : option V * gmap K V := (m !! k, delete k m).
(** 51-54 [remove_by_value]. *)
Definition ca_remove_by_value (v : V) (m : gmap K V) : option V * gmap K V := ca_remove_by_hash (hash v) m.
(** 56-58 [get]. *)
Definition ca_get (m : gmap K V) (k : K) : option V := m !! k.
(** 60-62 [len]. *)
Definition ca_len (m : gmap K V) : nat := size m.
(** 97-104 [contains_value], [contains_key]. *)
Definition ca_contains_key (m : gmap K V) (k : K) : bool := match m !! k with Some _ => true | None => false end.
Definition ca_contains_value (m : gmap K V) (v : V) : bool := ca_contains_key m (hash v).
(** 121-127 [merge]: the entries of the other map that are missing here. *)
Definition ca_merge (m other : gmap K V) : gmap K V :=
  map_fold (fun k v acc => match acc !! k with Some _ => acc | None => <[k := v]> acc end) m other.
(** 129-151 [from_iter]. *)
Definition ca_from_iter (vs : list V) : gmap K V := foldl (fun m v => <[hash v := v]> m) ∅ vs.
(** 196-203 [extend]: pairs are stored as given. *)
Definition ca_extend (m : gmap K V) (kvs : list (K * V)) : gmap K V := foldl (fun m kv => <[kv.1 := kv.2]> m) m kvs.

(** The operations on a map. *)
Inductive caop :=
| CaInsert (v : V) | CaInsertChecked (v : V) | CaRemoveHash (k : K) | CaRemoveValue (v : V)
| CaMerge (m : gmap K V) | CaExtend (kvs : list (K * V)).
Definition ca_step (m : gmap K V) (o : caop) : gmap K V :=
  match o with
  | CaInsert v => (ca_insert v m).2
  | CaInsertChecked v => (ca_insert_checked v m).2
  | CaRemoveHash k => (ca_remove_by_hash k m).2
  | CaRemoveValue v => (ca_remove_by_value v m).2
  | CaMerge m' => ca_merge m m'
  | CaExtend kvs => ca_extend m kvs
  end.
Definition ca_run (m : gmap K V) (os : list caop) : gmap K V := foldl ca_step m os.

(** The order of digests, and the order in which a [HashMap] lists its entries. *)
Context (key_le : K -> K -> bool).
(** [BTreeMap] collection by insertion. *)
Fixpoint sorted_insert (k : K) (v : V) (t : list (K * V)) : list (K * V) :=
  match t with
  | [] => [(k, v)]
  | (k', v') :: t' =>
      if decide (k = k') then (k, v) :: t'
      else if key_le k k' then (k, v) :: t
      else (k', v') :: sorted_insert k v t'
  end.
Definition sorted_collect (l : list (K * V)) : list (K * V) := foldl (fun t kv => sorted_insert kv.1 kv.2 t) [] l.
(** 171-176 [serialize]: the entries sorted by key; the entries come in the order [order]. *)
Definition ca_serialize (order : list (K * V)) : list (K * V) := sorted_collect order.
(** 14 [derive(Deserialize)]: the pairs are stored as read; digests are not recomputed. *)
Definition ca_deserialize (l : list (K * V)) : gmap K V := ca_extend ∅ l.

(** 153-169 [partial_cmp] and [cmp]: lexicographic on the keys in iteration order. *)
Fixpoint keys_cmp (a b : list K) : comparison :=
  match a, b with
  | [], [] => Eq
  | [], _ :: _ => Lt
  | _ :: _, [] => Gt
  | x :: a, y :: b =>
      if decide (x = y) then keys_cmp a b else if key_le x y then Lt else Gt
  end.
Definition ca_cmp (order1 order2 : list (K * V)) : comparison := keys_cmp (order1.*1) (order2.*1).
End camap.
Arguments caop : clear implicits.
Arguments caop K V {_ _}.

(** ** Zeros of a digest *)
(** core: [u8::count_zeros], the number of zero bits among the eight. *)
Definition count_zeros (b : N) : N :=
  foldl (fun n i => if N.testbit b i then n else (n + 1)%N) 0%N [0; 1; 2; 3; 4; 5; 6; 7]%N.

(** [u8] addition: with overflow checks it panics ([None]), without it wraps. *)
Definition u8_add_checked (a b : N) : option N := if (a + b <? 256)%N then Some (a + b)%N else None.
Definition u8_add_wrapping (a b : N) : N := ((a + b) mod 256)%N.

(** digest.rs 89-102 [trailing_zeros], on the reversed bytes, in a build with overflow checks. *)
Fixpoint trailing_zeros_checked_loop (count : N) (rev_bytes : list N) : option N :=
  match rev_bytes with
  | [] => Some count
  | b :: bs =>
      let zeros := count_zeros b in
      match u8_add_checked count zeros with
      | None => None
      | Some count => if (zeros =? 8)%N then trailing_zeros_checked_loop count bs else Some count
      end
  end.
Definition trailing_zeros_checked (digest : list N) : option N := trailing_zeros_checked_loop 0 (reverse digest).
(** The same in a build without overflow checks (the release profile). *)
Fixpoint trailing_zeros_wrapping_loop (count : N) (rev_bytes : list N) : N :=
  match rev_bytes with
  | [] => count
  | b :: bs =>
      let zeros := count_zeros b in
      let count := u8_add_wrapping count zeros in
      if (zeros =? 8)%N then trailing_zeros_wrapping_loop count bs else count
  end.
Definition trailing_zeros_wrapping (digest : list N) : N := trailing_zeros_wrapping_loop 0 (reverse digest).

(** digest.rs 114-126 [trailing_zero_bytes], with overflow checks. *)
Fixpoint trailing_zero_bytes_loop (count : N) (rev_bytes : list N) : option N :=
  match rev_bytes with
  | [] => Some count
  | b :: bs =>
      if (b =? 0)%N then
        match u8_add_checked count 1 with None => None | Some count => trailing_zero_bytes_loop count bs end
      else Some count
  end.
Definition trailing_zero_bytes (digest : list N) : option N := trailing_zero_bytes_loop 0 (reverse digest).

(** ** Transactions *)
Section transact.
Context {Trunk Forked Err : Type}.
Context (fork : Trunk -> Forked) (merge : Trunk -> Forked -> Trunk).

(** transact.rs 38-46 [transact_blocking]: the body gets a mutable fork; on an error ([?]) the
    fork is dropped, whatever the body had done to it. *)
Definition transact_blocking (trunk : Trunk) (tx : Forked -> Forked * (unit + Err)) : Trunk * (unit + Err) :=
  let '(forked, r) := tx (fork trunk) in
  match r with
  | inr e => (trunk, inr e)
  | inl _ => (merge trunk forked, inl tt)
  end.

(** transact.rs 135-151 [transact_async] is split at its await points: a fork is taken, the body
    works on it for as long as it likes, then it is merged or dropped. Other transactions, and
    direct changes to the trunk, can come in between. *)
Inductive sched := SFork (t : N) | SBody (t : N) (f : Forked -> Forked) | SCommit (t : N) | SAbort (t : N) | STrunk (f : Trunk -> Trunk).
Definition sched_step (s : Trunk * gmap N Forked) (e : sched) : Trunk * gmap N Forked :=
  match e with
  | SFork t => (s.1, <[t := fork s.1]> s.2)
  | SBody t f => (s.1, alter f t s.2)
  | SCommit t => match s.2 !! t with Some fk => (merge s.1 fk, delete t s.2) | None => s end
  | SAbort t => (s.1, delete t s.2)
  | STrunk f => (f s.1, s.2)
  end.
Definition sched_run (s : Trunk * gmap N Forked) (es : list sched) : Trunk * gmap N Forked := foldl sched_step s es.
End transact.
Arguments sched : clear implicits.

(** merge.rs 44-48 and fork.rs 46-52 [HashSet]. *)
Definition hs_fork {A} `{Countable A} (s : gset A) : gset A := s.
Definition hs_merge {A} `{Countable A} (s forked : gset A) : gset A := s ∪ forked.
(** merge.rs 50-56 and fork.rs 54-60 [HashMap]: the trunk's entries win. *)
Definition hm_fork {K V} `{Countable K} (m : gmap K V) : gmap K V := m.
Definition hm_merge {K V} `{Countable K} (m forked : gmap K V) : gmap K V :=
  map_fold (fun k v acc => match acc !! k with Some _ => acc | None => <[k := v]> acc end) m forked.

(** ** The active agent, with its shared cells *)
Section active.
Context {Pairs Indiv : Type} {Ev : Type}.
(** active.rs 49-72: the prekey pairs and the individual are behind [Arc<Mutex<_>>], given here
    by their addresses in a store of cells. *)
Record active := Active { ac_pairs : N; ac_individual : N; ac_listener : list Ev }.
Record cells := Cells { pairs_at : gmap N Pairs; individual_at : gmap N Indiv }.

(** 367-376 [fork]: [prekey_pairs.clone()] and [individual.clone()] clone the [Arc]s, that is the
    addresses; only the listener is new. *)
Definition active_fork (a : active) : active := Active (ac_pairs a) (ac_individual a) [].
(** 384-392 [merge_async]; the fork's log of events is not read. *)
Definition active_merge (extend : Pairs -> Pairs -> Pairs) (merge : Indiv -> Indiv -> Indiv)
    (h : cells) (a forked : active) : cells :=
  match individual_at h !! ac_individual forked, pairs_at h !! ac_pairs forked with
  | Some fi, Some fp =>
      Cells (alter (fun p => extend p fp) (ac_pairs a) (pairs_at h))
            (alter (fun i => merge i fi) (ac_individual a) (individual_at h))
  | _, _ => h
  end.
(** What a user sees of an active agent. *)
Definition active_view (h : cells) (a : active) : option Pairs * option Indiv :=
  (pairs_at h !! ac_pairs a, individual_at h !! ac_individual a).
(** transact.rs 135-151 on an active agent: the body works through the fork on the cells. *)
Definition active_transact (extend : Pairs -> Pairs -> Pairs) (merge : Indiv -> Indiv -> Indiv)
    (h : cells) (a : active) (tx : cells -> active -> cells * active * bool) : cells * bool :=
  let '(h, fk, ok) := tx h (active_fork a) in
  if ok then (active_merge extend merge h a fk, true) else (h, false).
End active.
Arguments active : clear implicits.
Arguments cells : clear implicits.
