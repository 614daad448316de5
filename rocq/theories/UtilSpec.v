(** Vocabulary for the statements about queues, content-addressed maps, digests and
    transactions. *)
From Coq Require Import Arith NArith.
From stdpp Require Import base list gmap.
From Verif Require Import UtilModel.

(** ** Queues *)
(** The events put into a queue by a run, and those taken out of it. *)
Definition pushed {Ev} (os : list (qop Ev)) : list Ev :=
  omap (fun o => match o with QPush e => Some e | _ => None end) os.
Definition logged {Ev} (os : list (lop Ev)) : list Ev :=
  omap (fun o => match o with LPush e => Some e | _ => None end) os.
Definition popped {Ev} (rs : list (qres Ev)) : list Ev :=
  omap (fun r => match r with REvent (Some e) => Some e | _ => None end) rs.
(** [x] comes before [y] in [l]. *)
Definition earlier {A} (l : list A) (x y : A) : Prop := ∃ l1 l2 l3, l = l1 ++ x :: l2 ++ y :: l3.

(** ** Content-addressed maps *)
(** Every entry is under its own digest. *)
Definition keyed {K V} `{Countable K} (hash : V -> K) (m : gmap K V) : Prop := ∀ k v, m !! k = Some v → hash v = k.
(** An operation that does not bring in an entry under a foreign digest. *)
Definition honest {K V} `{Countable K} (hash : V -> K) (o : caop K V) : Prop :=
  match o with
  | CaMerge m => keyed hash m
  | CaExtend kvs => ∀ k v, (k, v) ∈ kvs → hash v = k
  | _ => True
  end.
(** Whether an operation puts [v] in ([Some true]), takes it out ([Some false]) or neither. *)
Definition effect {K V} `{Countable K} `{EqDecision V} (hash : V -> K) (v : V) (o : caop K V) : option bool :=
  match o with
  | CaInsert w | CaInsertChecked w => if decide (w = v) then Some true else None
  | CaRemoveHash k => if decide (k = hash v) then Some false else None
  | CaRemoveValue w => if decide (w = v) then Some false else None
  | CaMerge m => if decide (m !! hash v = Some v) then Some true else None
  | CaExtend kvs => if decide ((hash v, v) ∈ kvs) then Some true else None
  end.
(** [v] is in the map after [os], going by the last operation that concerned it. *)
Definition in_after {K V} `{Countable K} `{EqDecision V} (hash : V -> K) (v : V) (os : list (caop K V)) : Prop :=
  last (omap (effect hash v) os) = Some true.
(** A total order on digests. *)
Definition total_order {K} (le : K -> K -> bool) : Prop :=
  (∀ a b, le a b = true ∨ le b a = true) ∧
  (∀ a b, le a b = true → le b a = true → a = b) ∧
  (∀ a b c, le a b = true → le b c = true → le a c = true).
(** An order in which a hash map may list its entries. *)
Definition lists {K V} `{Countable K} (order : list (K * V)) (m : gmap K V) : Prop := order ≡ₚ map_to_list m.

(** ** Digests *)
Definition is_digest (d : list N) : Prop := length d = 32 ∧ ∀ b, b ∈ d → (b < 256)%N.
(** The bits of a digest, most significant bit of each byte first. *)
Definition bits (d : list N) : list bool :=
  concat (map (fun b => map (N.testbit b) [7; 6; 5; 4; 3; 2; 1; 0]%N) d).
(** [l] ends with exactly [n] copies of [z]. *)
Definition ends_with {A} (z : A) (l : list A) (n : nat) : Prop :=
  ∃ pre, l = pre ++ replicate n z ∧ last pre ≠ Some z.

(** ** Transactions *)
(** The step belongs to transaction [t]. *)
Definition of_tx {T Fk} (t : N) (e : sched T Fk) : Prop :=
  match e with SFork t' | SBody t' _ | SCommit t' | SAbort t' => t' = t | STrunk _ => False end.
Global Instance of_tx_dec {T Fk} t (e : sched T Fk) : Decision (of_tx t e).
Proof. destruct e; cbn; apply _. Defined.
(** The trunk is only changed through transactions. *)
Definition only_tx {T Fk} (es : list (sched T Fk)) : Prop := ∀ f, STrunk f ∉ es.
(** [fk] is what one of the transactions had made of its fork when it was merged. *)
Definition committed {T Fk} (fork : T -> Fk) (merge : T -> Fk -> T) (s : T * gmap N Fk) (es : list (sched T Fk)) (fk : Fk) : Prop :=
  ∃ es1 t es2, es = es1 ++ SCommit t :: es2 ∧ (sched_run fork merge s es1).2 !! t = Some fk.
