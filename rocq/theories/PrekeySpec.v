(** Specification of prekeys, independent of the functions that maintain them. *)
From stdpp Require Import base list gmap.
From Verif Require Import GroupModel PrekeyModel.

(** [i] made this operation. *)
Definition genuine (i : ident) (o : keyop) : Prop :=
  ko_issuer o = i /\ ko_signer o = i /\ ko_signed o = ko_pay o.

(** A key occurs in an operation. *)
Definition mentions (o : keyop) (k : pubkey) : Prop := new_key o = k \/ old_key o = Some k.

(** The operations an individual makes when every new key is freshly generated, oldest first.  The key
    to be rotated out may be any key: the API does not check it. *)
Inductive authored (i : ident) : list keyop -> Prop :=
| authored_nil : authored i []
| authored_snoc H o :
    authored i H -> genuine i o ->
    (forall p, p ∈ H -> ~ mentions p (new_key o)) -> old_key o <> Some (new_key o) ->
    authored i (H ++ [o]).

(** The prekeys that a set of operations stands for: introduced by one of them and not rotated out by
    another. *)
Definition current (P : keyop -> Prop) (k : pubkey) : Prop :=
  (exists o, P o /\ new_key o = k) /\ ~ (exists o, P o /\ old_key o = Some k).

(** An operation whose key descends from an added key through the operations of [l]. *)
Inductive rooted (l : list keyop) : keyop -> Prop :=
| rooted_add o : o ∈ l -> old_key o = None -> rooted l o
| rooted_rotate o p : o ∈ l -> rooted l p -> old_key o = Some (new_key p) -> rooted l o.

(** Receiving operations one after the other; failures leave the individual as it is. *)
Definition receive_all (x : individual) (l : list keyop) : individual :=
  foldl (fun x o => (receive_key x o).1) x l.

(** What the active agent may do; a device also receives operations its owner made on another one. *)
Inductive action := Expand (k : pubkey) | Rotate (old new : pubkey) | Receive (o : keyop).
Definition act (a : active) (c : action) : active :=
  match c with
  | Expand k => (active_expand a k).1
  | Rotate old new => (active_rotate a old new).1
  | Receive o => Active (ac_pairs a) (receive_key (ac_ind a) o).1
  end.
(** New keys are fresh: no operation known to the agent mentions them. *)
Definition fresh_action (a : active) (c : action) : Prop :=
  match c with
  | Expand k => forall p, p ∈ in_ops (ac_ind a) -> ~ mentions p k
  | Rotate old new => new <> old /\ forall p, p ∈ in_ops (ac_ind a) -> ~ mentions p new
  | Receive _ => True
  end.
Fixpoint fresh_run (a : active) (l : list action) : Prop :=
  match l with [] => True | c :: l => fresh_action a c /\ fresh_run (act a c) l end.
