(** Model of what a client offers to another agent: keyhive_core/src/keyhive.rs 766-1346 and
    principal/group/membership_operation.rs 490-677.

    A query reads the client while nobody changes it.  [Arc] pointers to groups are identifiers that
    are looked up in the client. *)
From Coq Require Import Arith.
From stdpp Require Import base list gmap.
From Verif Require Import AccessModel GroupModel PrekeyModel HiveModel.

Section sync.
Context (order : gset nat -> list nat).
Context {cg cop : Type} (doc_ops : cg -> ident -> list cop).
Notation hive := (hive cg cop).

(** The values of a hash map, and its entries, in the order in which it yields them. *)
Definition entries {A} (m : gmap nat A) : list A := omap (m !!.) (order (dom m)).

(** group.rs 271-350 [transitive_members] of a group of the client (of documents: document.rs 132-134). *)
Definition caps_of (h : hive) (g : group) : option (gmap ident access) := transitive_members order (h_env h) (gr_id g) (gr_members g).
Definition reaches (h : hive) (a : ident) (g : group) : bool :=
  match caps_of h g with Some caps => bool_decide (is_Some (caps !! a)) | None => false end.
(** keyhive.rs 766-789 [docs_reachable_by_agent]. *)
Definition docs_reachable (h : hive) (a : ident) : list group := filter (fun g => reaches h a g = true) (entries (h_docs h)).
(** keyhive.rs 792-827 [membered_reachable_by_agent]. *)
Definition membered_reachable (h : hive) (a : ident) : list group :=
  filter (fun g => reaches h a g = true) (entries (h_groups h)) ++ docs_reachable h a.

(** ** Membership operations *)

(** membership_operation.rs 555-573 [collect_membership_heads]. *)
Definition membership_heads (g : group) : list mop := map MD (entries (gr_dheads g)) ++ map MR (entries (gr_rheads g)).
(** store/revocation.rs 110-115 [get_revocations_for_agent]: filed under the delegate of the revoked
    delegation. *)
Definition revs_for (h : hive) (a : ident) : list rev := filter (fun r => d_delegate (r_revoke r) = a) (entries (h_revs h)).
(** membership_operation.rs 599-608: the delegation heads of the group that a delegation is for.
    [Agent::Group] only: documents, individuals and the active agent have none ([get_agent],
    keyhive.rs 1394-1424, looks for them first or last). *)
Definition group_edges (h : hive) (o : mop) : list mop :=
  match o with
  | MD d =>
      if d_delegate d =? ks_active (h_keys h) then []
      else match h_docs h !! d_delegate d with
           | Some _ => []
           | None => match h_groups h !! d_delegate d with Some g => map MD (entries (gr_dheads g)) | None => [] end
           end
  | MR _ => []
  end.
(** membership_operation.rs 582-620 [push_membership_edges].  [GroupModel.parents] has the proof, the
    revocations and the revoked delegation. *)
Definition edges (h : hive) (follow : bool) (o : mop) : list mop := parents o ++ if follow then group_edges h o else [].
(** membership_operation.rs 625-646 [bfs_membership_ops], 651-677 [bfs_extend_from_revocation] and
    keyhive.rs 956-993.  The head of the list is the top of the stack; [visited] always has the
    keys of the result; heads that were visited before are pushed here and skipped when popped. *)
Fixpoint bfs (h : hive) (follow : bool) (fuel : nat) (stack : list mop) (acc : gmap sig mop) : option (gmap sig mop) :=
  match stack with
  | [] => Some acc
  | o :: stack =>
      match fuel with
      | 0 => None
      | S f =>
          if decide (is_Some (acc !! op_sig o)) then bfs h follow f stack acc
          else bfs h follow f (reverse (edges h follow o) ++ stack) (<[op_sig o := o]> acc)
      end
  end.
(** Fuel: what is on the stack and what the operations of the client can push. *)
Definition stored (h : hive) : list mop := map MD (entries (h_dlgs h)) ++ map MR (entries (h_revs h)).
Definition bfs_fuel (h : hive) (stack : list mop) : nat := length stack + foldr Nat.add 0 (map (fun o => length (edges h true o)) (stored h)).
Definition search (h : hive) (follow : bool) (stack : list mop) (acc : gmap sig mop) : option (gmap sig mop) :=
  bfs h follow (bfs_fuel h stack) stack acc.

(** keyhive.rs 919-996 [membership_ops_for_agent]. *)
Definition membership_ops (h : hive) (a : ident) : option (gmap sig mop) :=
  search h true (reverse (concat (map membership_heads (membered_reachable h a)) ++ map MR (revs_for h a))) ∅.

(** keyhive.rs 1005-1081 [membership_ops_for_all_agents] with [AllMembershipOps]
    (membership_operation.rs 509-551): the operations of every source, and the sources of every agent. *)
Record all_ops := AllOps { ao_ops : gmap ident (gmap sig mop); ao_index : gmap ident (gset ident) }.
Definition add_source (ix : gmap ident (gset ident)) (src a : ident) : gmap ident (gset ident) := <[a := {[src]} ∪ default ∅ (ix !! a)]> ix.
(** 1010-1054: one group or document. *)
Definition all_ops_group (h : hive) (x : option all_ops) (g : group) : option all_ops :=
  match x, search h true (reverse (membership_heads g)) ∅, caps_of h g with
  | Some x, Some m, Some caps =>
      Some (AllOps (<[gr_id g := m]> (ao_ops x)) (foldl (fun ix a => add_source ix (gr_id g) a) (ao_index x) (order (dom caps))))
  | _, _, _ => None
  end.
(** 1067-1074: one revocation. *)
Definition all_ops_rev (h : hive) (m : option (gmap sig mop)) (r : rev) : option (gmap sig mop) :=
  match m with
  | None => None
  | Some m =>
      if decide (is_Some (m !! r_sig r)) then Some m
      else search h false (reverse (parents (MR r))) (<[r_sig r := MR r]> m)
  end.
(** 1056-1079: one agent with revocations. *)
Definition all_ops_agent (h : hive) (x : option all_ops) (a : ident) : option all_ops :=
  match x with
  | None => None
  | Some x =>
      match foldl (all_ops_rev h) (Some (default ∅ (ao_ops x !! a))) (revs_for h a) with
      | None => None
      | Some m => Some (AllOps (<[a := m]> (ao_ops x)) (if decide (m = ∅) then ao_index x else add_source (ao_index x) a a))
      end
  end.
Definition revoked_agents (h : hive) : gset ident := list_to_set (map (fun r => d_delegate (r_revoke r)) (entries (h_revs h))).
Definition membership_ops_all (h : hive) : option all_ops :=
  let x := foldl (all_ops_group h) (Some (AllOps ∅ ∅)) (entries (h_groups h)) in
  let x := foldl (all_ops_group h) x (entries (h_docs h)) in
  foldl (all_ops_agent h) x (order (revoked_agents h)).
(** membership_operation.rs 533-550 [ops_for_agent]. *)
Definition ops_for_agent (x : all_ops) (a : ident) : option (list mop) :=
  match ao_index x !! a with
  | None => None
  | Some srcs => Some (concat (map (fun s => match ao_ops x !! s with Some m => entries m | None => [] end) (order srcs)))
  end.

(** ** Prekey operations *)

(** keyhive.rs 1084-1160 [reachable_prekey_ops_for_agent]: the agents whose operations are included.
    The operations of each are those of [PrekeyModel.key_ops], sorted ([PrekeyModel.key_topsort]). *)
Definition prekey_agents (h : hive) (a : ident) : gset ident :=
  foldl (fun s g => match caps_of h g with
                    | Some caps => if bool_decide (is_Some (caps !! a)) then {[gr_id g]} ∪ dom caps ∪ s else s
                    | None => s
                    end)
        {[ks_active (h_keys h); a]} (entries (h_groups h) ++ entries (h_docs h)).
Definition prekey_ops (h : hive) (a : ident) : gset keyop := ⋃ (map (key_ops (h_keys h)) (order (prekey_agents h a))).
(** keyhive.rs 1172-1301 [reachable_prekey_ops_for_all_agents]: its index. *)
Definition prekey_index (h : hive) : gmap ident (gset ident) :=
  let act := ks_active (h_keys h) in
  let ix := {[act := {[act]}]} : gmap ident (gset ident) in
  let ix := foldl (fun ix i => <[i := {[act; i]} ∪ default ∅ (ix !! i)]> ix) ix (order (dom (ks_indies (h_keys h)))) in
  foldl (fun ix g => match caps_of h g with
                     | Some caps => foldl (fun ix i => <[i := {[act; i; gr_id g]} ∪ dom caps ∪ default ∅ (ix !! i)]> ix) ix (order (dom caps))
                     | None => ix
                     end) ix (entries (h_groups h) ++ entries (h_docs h)).

(** ** Group-key operations *)

(** keyhive.rs 877-897 [cgka_ops_reachable_by_agent]; [doc_ops] is empty for a document without key
    agreement or with a failing one. *)
Definition cgka_ops (h : hive) (a : ident) : list cop := concat (map (fun g => doc_ops (h_cg h) (gr_id g)) (docs_reachable h a)).
(** keyhive.rs 1309-1346 [cgka_ops_for_all_agents]. *)
Definition cgka_index (h : hive) : gmap ident (gset ident) :=
  foldl (fun ix g => match doc_ops (h_cg h) (gr_id g), caps_of h g with
                     | [], _ | _, None => ix
                     | _, Some caps => foldl (fun ix i => <[i := {[gr_id g]} ∪ default ∅ (ix !! i)]> ix) ix (order (dom caps))
                     end) ∅ (entries (h_docs h)).
Definition cgka_for_agent (h : hive) (a : ident) : list cop :=
  concat (map (doc_ops (h_cg h)) (order (default ∅ (cgka_index h !! a)))).

(** ** Everything *)

(** delegation.rs 186-201, revocation.rs 101-110: the wire form of an operation that was received or made. *)
Definition static_of (o : mop) : sevent cop :=
  match o with
  | MD d => EDlg (SDlg (d_sig d) (d_issuer d) (d_delegate d) (d_can d) (d_sig <$> d_proof d) (r_sig <$> d_after d) (d_content d) true)
  | MR r => ERev (SRev (r_sig r) (r_issuer r) (d_sig (r_revoke r)) (d_sig <$> r_proof r) (r_content r) true)
  end.
(** keyhive.rs 838-875 [events_for_agent] and [static_events_for_agent]. *)
Definition events_for_agent (h : hive) (a : ident) : option (list (sevent cop)) :=
  match membership_ops h a with
  | None => None
  | Some m => Some (map static_of (entries m) ++ map EKey (elements (prekey_ops h a)) ++ map ECgka (cgka_ops h a))
  end.
End sync.
