(** The numbers a client reports about itself. *)
From Coq Require Import Arith Lia.
From stdpp Require Import base list gmap.
From Verif Require Import ResModel KeysModel TreeModel OpsModel CgkaModel.
From Verif Require Import AccessModel GroupModel PrekeyModel HiveModel DocModel.

(** keyhive_core/src/stats.rs 4-24 [Stats].  The ten numbers about pending events are five pairs: all of a kind, and those
    of the active agent.  Numbers are not bounded by 64 bits. *)
Record tally := Tally {
  ta_people : nat; ta_groups : nat; ta_docs : nat; ta_dlgs : nat; ta_revs : nat;
  ta_expanded : nat; ta_rotated : nat; ta_key_ops : nat; ta_active : nat;
  ta_wait_expanded : nat * nat; ta_wait_rotated : nat * nat; ta_wait_key : nat * nat; ta_wait_dlg : nat * nat; ta_wait_rev : nat * nat
}.
(** keyhive.rs 2393-2402: over the operations of all individuals. *)
Definition count_keys (k : kstore) (adds : bool) : nat :=
  sum_list (map (fun p => length (filter (fun o => is_add o = adds) (elements (in_ops p.2)))) (map_to_list (ks_indies k))).
(** keyhive.rs 2404-2410 with beekem/src/cgka.rs 147-149 [ops_count]: documents without a key are passed over. *)
Definition count_key_ops (h : client) : nat :=
  sum_list (map (fun p => match cgka_of h p.1 with Some c => size (g_ops (c_graph c)) | None => 0 end) (map_to_list (h_docs h))).
(** keyhive.rs 2426-2457: the kinds of events, and who signed one. *)
Inductive kind := KExpanded | KRotated | KKey | KDlg | KRev.
Definition kind_of (x : sevent dop) : kind :=
  match x with
  | EKey o => if is_add o then KExpanded else KRotated
  | ECgka _ => KKey
  | EDlg _ => KDlg
  | ERev _ => KRev
  end.
Definition signer_of (x : sevent dop) : ident :=
  match x with EKey o => ko_issuer o | ECgka o => do_issuer o | EDlg d => sd_issuer d | ERev r => sr_issuer r end.
Global Instance kind_eq_dec : EqDecision kind.
Proof. solve_decision. Defined.
(** keyhive.rs 2412-2457: the loop over the pending events; a number is raised, and a second one if the active agent signed. *)
Fixpoint count_waiting (a : ident) (k : kind) (l : list (sevent dop)) : nat * nat :=
  match l with
  | [] => (0, 0)
  | x :: l =>
      let '(n, m) := count_waiting a k l in
      if decide (kind_of x = k) then (S n, if signer_of x =? a then S m else m) else (n, m)
  end.
(** keyhive.rs 2380-2480 [stats]. *)
Definition stats (h : client) : tally :=
  let k := h_keys h in
  let w t := count_waiting (ks_active k) t (h_pending h) in
  Tally (size (ks_indies k)) (size (h_groups h)) (size (h_docs h)) (size (h_dlgs h)) (size (h_revs h))
    (count_keys k true) (count_keys k false) (count_key_ops h)
    (match ks_indies k !! ks_active k with Some x => size (in_ops x) | None => 0 end)
    (w KExpanded) (w KRotated) (w KKey) (w KDlg) (w KRev).
