(** Model of access levels: keyhive_core/src/access.rs. *)
From Coq Require Import Arith.
From stdpp Require Import base decidable.

(** access.rs 18-41 [Access]; the derived order is the order of the constructors. *)
Inductive access := Relay | Read | Edit | Admin.
Global Instance access_eq_dec : EqDecision access.
Proof. solve_decision. Defined.
(** The derived [Ord] compares the positions of the constructors. *)
Definition rank (a : access) : nat := match a with Relay => 0 | Read => 1 | Edit => 2 | Admin => 3 end.
(** [a <= b] and [a < b] in Rust. *)
Definition ale (a b : access) : bool := rank a <=? rank b.
Definition alt (a b : access) : bool := rank a <? rank b.
(** [Ord::max] and [Ord::min]; equal arguments are identical. *)
Definition amax (a b : access) : access := if ale a b then b else a.
Definition amin (a b : access) : access := if ale a b then a else b.
(** access.rs 44-46 [is_reader]. *)
Definition is_reader (a : access) : bool := ale Read a.
(** access.rs 48-50 [is_editor]. *)
Definition is_editor (a : access) : bool := ale Edit a.
