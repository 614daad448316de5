(** Model of groups: keyhive_core/src/principal/group.rs and group/{delegation, revocation,
    membership_operation, state}.rs, util/topsort.rs.

    Agents are named by their identifiers.  Identifiers and verifying keys are the same
    thing (principal/identifier.rs).  An [Agent] value in the code also carries a shared
    pointer to the group or document; here the pointer is followed by looking the identifier
    up in [env].  Signatures are assumed genuine (keyhive_crypto/src/signed.rs [try_verify]
    runs before these functions); the number [d_sig] stands both for the signature and for
    the digest of the signed operation. *)
From Coq Require Import Arith.
From stdpp Require Import base list gmap sorting.
From Verif Require Import AccessModel.

Notation ident := nat.
Notation sig := nat.

(** ** Delegations and revocations *)

(** delegation.rs 30-42 [Delegation] inside signed.rs [Signed] (issuer, signature);
    revocation.rs 22-32 [Revocation].  [*_content] stands for the [after_content] map. *)
Inductive dlg := Dlg {
  d_sig : sig; d_issuer : ident; d_delegate : ident; d_can : access;
  d_proof : option dlg; d_after : list rev; d_content : nat
}
with rev := Rev {
  r_sig : sig; r_issuer : ident; r_revoke : dlg; r_proof : option dlg; r_content : nat
}.

(** signed.rs 68-72: equality of signed values compares issuer and signature. *)
Definition dlg_eqb (a b : dlg) : bool := (d_issuer a =? d_issuer b) && (d_sig a =? d_sig b).
Definition rev_eqb (a b : rev) : bool := (r_issuer a =? r_issuer b) && (r_sig a =? r_sig b).

(** delegation.rs 101-111 [proof_lineage]: nearest proof first. *)
Fixpoint lineage (d : dlg) : list dlg :=
  match d_proof d with
  | Some p => p :: lineage p
  | None => []
  end.
(** signed_ext.rs 42-50 [subject_id] of a delegation: the issuer of the root of the chain. *)
Fixpoint d_subject (d : dlg) : ident :=
  match d_proof d with
  | Some p => d_subject p
  | None => d_issuer d
  end.
(** revocation.rs 37-39, signed_ext.rs 53-59 [subject_id] of a revocation. *)
Definition r_subject (r : rev) : ident := d_subject (r_revoke r).
(** delegation.rs 113-125 [is_descendant_of] (signed equality). *)
Definition is_descendant_of (d anc : dlg) : bool := existsb (fun p => dlg_eqb p anc) (lineage d).
(** Derived equality of payloads, delegation.rs 29 ([Agent] equality compares identifiers). *)
Definition payload_eqb (a b : dlg) : bool :=
  (d_delegate a =? d_delegate b) && bool_decide (d_can a = d_can b) &&
  match d_proof a, d_proof b with
  | Some p, Some q => dlg_eqb p q
  | None, None => true
  | _, _ => false
  end &&
  (length (d_after a) =? length (d_after b)) && forallb (fun x => rev_eqb x.1 x.2) (zip (d_after a) (d_after b)) &&
  (d_content a =? d_content b).
(** delegation.rs 127-139 [is_ancestor_of]: payload equality, so the issuer is ignored. *)
Definition is_ancestor_of (a desc : dlg) : bool := existsb (fun p => payload_eqb p a) (lineage desc).

(** ** Membership operations *)

(** membership_operation.rs 33-41 [MembershipOperation]. *)
Inductive mop := MD (d : dlg) | MR (r : rev).
Definition op_sig (o : mop) : sig := match o with MD d => d_sig d | MR r => r_sig r end.
Definition is_revocation (o : mop) : bool := match o with MR _ => true | MD _ => false end.
(** membership_operation.rs 139-146 [after_auth], delegation.rs 75-95, revocation.rs 53-64. *)
Definition parents (o : mop) : list mop :=
  match o with
  | MD d => map MD (option_list (d_proof d)) ++ map MR (d_after d)
  | MR r => MD (r_revoke r) :: map MD (option_list (r_proof r))
  end.

(** Number of operations in the unfolding of an operation; fuel for the loops below. *)
Fixpoint d_size (d : dlg) : nat :=
  match d with
  | Dlg _ _ _ _ p l _ =>
      S (match p with Some p => d_size p | None => 0 end +
         (fix go (l : list rev) : nat := match l with [] => 0 | r :: l => r_size r + go l end) l)
  end
with r_size (r : rev) : nat :=
  match r with
  | Rev _ _ d p _ => S (d_size d + match p with Some p => d_size p | None => 0 end)
  end.
Definition op_size (o : mop) : nat := match o with MD d => d_size d | MR r => r_size r end.

(** membership_operation.rs 289-331 [compute_distance]: one more than the largest distance of
    a parent.  All parents are in [all_ops], which is closed under parents, so the filter of
    line 319 never drops one and the memo table only saves time. *)
Fixpoint d_depth (d : dlg) : nat :=
  match d with
  | Dlg _ _ _ _ p l _ =>
      S (max (match p with Some p => d_depth p | None => 0 end)
         ((fix go (l : list rev) : nat := match l with [] => 0 | r :: l => max (r_depth r) (go l) end) l))
  end
with r_depth (r : rev) : nat :=
  match r with
  | Rev _ _ d p _ => S (max (d_depth d) (match p with Some p => d_depth p | None => 0 end))
  end.
Definition op_depth (o : mop) : nat := match o with MD d => d_depth d | MR r => r_depth r end.

(** ** Topological sort *)

(** util/topsort.rs 16-24 [Topsort]: for each node the set of nodes that must come first.  The
    reverse index [rdeps] always mirrors it and is left out. *)
Notation deps := (gmap sig (gset sig)).
(** topsort.rs 49-52 [add_node]. *)
Definition add_node (g : deps) (x : sig) : deps := match g !! x with Some _ => g | None => <[x := ∅]> g end.
(** topsort.rs 37-46 [add_dependency]. *)
Definition add_dependency (g : deps) (before after : sig) : deps :=
  let g := add_node g before in
  <[after := {[ before ]} ∪ default ∅ (g !! after)]> g.
(** Sorting digests (topsort.rs 79 and the [BTreeMap] iterations). *)
Definition sort_sigs (l : list sig) : list sig := merge_sort (≤) l.
(** topsort.rs 65-92 [pop_frontier]. *)
Definition ready (g : deps) : list sig := sort_sigs (filter (fun x => g !! x = Some ∅) (elements (dom g))).
Definition drop_nodes (l : list sig) (g : deps) : deps :=
  (fun s : gset sig => s ∖ list_to_set l) <$> filter (fun x => x.1 ∉ l) g.

(** ** Replay order: membership_operation.rs 223-435 [reverse_topsort] *)

(** Lines 265-286: everything reachable from the heads, and for each revoked delegation the
    revocation seen last.  The head of the list is the top of the stack. *)
Fixpoint explore (fuel : nat) (stack : list mop) (all : gmap sig mop) (rdeps : gmap sig sig) :
    option (gmap sig mop * gmap sig sig) :=
  match stack with
  | [] => Some (all, rdeps)
  | o :: stack =>
      match fuel with
      | 0 => None
      | S f =>
          if decide (is_Some (all !! op_sig o)) then explore f stack all rdeps
          else
            let rdeps := match o with MR r => <[d_sig (r_revoke r) := r_sig r]> rdeps | MD _ => rdeps end in
            explore f (reverse (parents o) ++ stack) (<[op_sig o := o]> all) rdeps
      end
  end.
(** Lines 349-373: the nodes that [o] must precede (in the reversed order): its parents and
    the revocation of its proof. *)
Definition succs (all : gmap sig mop) (rdeps : gmap sig sig) (o : mop) : list sig :=
  filter (fun x => is_Some (all !! x)) (map op_sig (parents o)) ++
  match o with
  | MD d => match d_proof d with
            | Some p => filter (fun x => is_Some (all !! x)) (option_list (rdeps !! d_sig p))
            | None => []
            end
  | MR _ => []
  end.
(** Lines 347-374.  The order of insertion does not matter. *)
Definition build_deps (all : gmap sig mop) (rdeps : gmap sig sig) : deps :=
  foldl (fun g (x : sig * mop) => foldl (fun g y => add_dependency g x.1 y) (add_node g x.1) (succs all rdeps x.2)) ∅ (map_to_list all).
(** Line 394-398: by distance to the root, then by digest. *)
Definition seniority (all : gmap sig mop) (a b : sig) : Prop :=
  let da := default 1 (op_depth <$> all !! a) in
  let db := default 1 (op_depth <$> all !! b) in
  da < db \/ (da = db /\ a <= b).
Global Instance seniority_dec all : RelDecision (seniority all).
Proof. intros a b. unfold seniority. apply _. Defined.
(** Lines 403-408 [windows(2)]. *)
Fixpoint windows (g : deps) (l : list sig) : deps :=
  match l with
  | [] => g
  | a :: l' => match l' with b :: _ => windows (add_dependency g b a) l' | [] => g end
  end.
Definition rev_sig (all : gmap sig mop) (x : sig) : bool := match all !! x with Some o => is_revocation o | None => false end.
(** Lines 378-431. *)
Fixpoint drain (fuel : nat) (all : gmap sig mop) (rdeps : gmap sig sig) (g : deps) (acc : list sig) : option (list sig) :=
  if decide (g = ∅) then Some acc
  else match fuel with
  | 0 => None
  | S f =>
      match ready g with
      | [] => Some acc
      | batch =>
          let g := drop_nodes batch g in
          let revs := filter (fun x => rev_sig all x = true) batch in
          let others := filter (fun x => rev_sig all x = false) batch in
          let acc := acc ++ sort_sigs others in
          if length revs <=? 1 then drain f all rdeps g (acc ++ revs)
          else
            match merge_sort (seniority all) revs with
            | [] => None
            | first :: rest =>
                let g := windows g rest in
                let g := if length rest =? 1 then foldl add_node g rest else g in
                let g := foldl (fun g x => match all !! x with
                                           | Some o => foldl (fun g y => add_dependency g x y) g (succs all rdeps o)
                                           | None => g
                                           end) g rest in
                drain f all rdeps g (acc ++ [first])
            end
      end
  end.

(** group/error.rs [AddError], group.rs 948-967 [AddGroupMemberError], [RevokeMemberError];
    [GFuel] is out of fuel. *)
Inductive gerror := EInvalidSubject | EInvalidProofChain | EEscalation | ENoProof | EAccessEscalation | GFuel.
Inductive gres (A : Type) := GOk (a : A) | GErr (e : gerror).
Arguments GOk {A} a. Arguments GErr {A} e.

Section group.
(** Iteration order of hash maps over their keys. *)
Context (order : gset nat -> list nat).

(** membership_operation.rs 223-435; the digests in the order of the returned vector, and the
    table of operations. *)
Definition reverse_topsort (dheads : gmap sig dlg) (rheads : gmap sig rev) : option (list sig * gmap sig mop) :=
  let heads := map MD (omap (dheads !!.) (order (dom dheads))) ++ map MR (omap (rheads !!.) (order (dom rheads))) in
  match explore (foldr Nat.add 0 (map op_size heads)) (reverse heads) ∅ ∅ with
  | None => None
  | Some (all, rdeps) =>
      match drain (size all) all rdeps (build_deps all rdeps) [] with
      | None => None
      | Some l => Some (l, all)
      end
  end.

(** ** Materialising the members: group.rs 749-878 [rebuild] *)

(** The local variables of [rebuild]. *)
Record play := Play {
  p_members : gmap ident (list dlg);
  p_active : gmap sig rev;
  p_in : gmap sig dlg;
  p_revoked : gset sig;
  p_rdep : gmap sig (gset sig)
}.
Definition no_play : play := Play ∅ ∅ ∅ ∅ ∅.

(** Lines 832-854: the cascade.  Dependents leave [in_play] when they are found, so that when
    they are popped nothing is left to be put into [to_drop].  Fuel: every push removes an
    entry of [in_play]. *)
Fixpoint cascade (fuel : nat) (next : list sig) (inp : gmap sig dlg) (revoked : gset sig) (rdep : gmap sig (gset sig))
    (to_drop : list (ident * sig)) : option (gmap sig dlg * gset sig * list (ident * sig)) :=
  match next with
  | [] => Some (inp, revoked, to_drop)
  | s :: next =>
      match fuel with
      | 0 => None
      | S f =>
          let revoked := {[ s ]} ∪ revoked in
          let '(inp, to_drop) := match inp !! s with
                                 | Some d => (delete s inp, to_drop ++ [(d_delegate d, s)])
                                 | None => (inp, to_drop)
                                 end in
          match rdep !! s with
          | Some ds =>
              let '(inp, revoked, next) :=
                foldl (fun (st : gmap sig dlg * gset sig * list sig) x =>
                         let '(inp, revoked, next) := st in
                         match inp !! x with
                         | Some _ => (delete x inp, {[ x ]} ∪ revoked, x :: next)
                         | None => (inp, {[ x ]} ∪ revoked, next)
                         end) (inp, revoked, next) (order ds) in
              cascade f next inp revoked rdep to_drop
          | None => cascade f next inp revoked rdep to_drop
          end
      end
  end.
(** Lines 856-875. *)
Definition drop_member (m : gmap ident (list dlg)) (x : ident * sig) : gmap ident (list dlg) :=
  match filter (fun d => d_sig d <> x.2) (default [] (m !! x.1)) with
  | [] => delete x.1 m
  | l => <[x.1 := l]> m
  end.

(** Lines 767-815: a delegation. *)
Definition play_delegation (gid : ident) (s : play) (d : dlg) : play :=
  let rdep := match d_proof d with
              | Some p => <[d_sig p := {[ d_sig d ]} ∪ default ∅ (p_rdep s !! d_sig p)]> (p_rdep s)
              | None => p_rdep s
              end in
  let s := Play (p_members s) (p_active s) (p_in s) (p_revoked s) rdep in
  let skip := match d_proof d with
              | Some p =>
                  if bool_decide (d_sig p ∈ p_revoked s \/ p_in s !! d_sig p = None) then
                    match p_members s !! d_issuer p with
                    | Some alts => forallb (fun a => alt (d_can a) (d_can p)) (filter (fun a => dlg_eqb a p = false) alts)
                    | None => negb (d_issuer p =? gid)
                    end
                  else false
              | None => negb (d_issuer d =? gid)
              end in
  if skip then s
  else if bool_decide (d_sig d ∈ p_revoked s) then s
  else Play (<[d_delegate d := default [] (p_members s !! d_delegate d) ++ [d]]> (p_members s)) (p_active s)
            (<[d_sig d := d]> (p_in s)) (p_revoked s) (p_rdep s).
(** Lines 816-876: a revocation. *)
Definition play_revocation (gid : ident) (s : play) (r : rev) : option play :=
  let skip := match r_proof r with
              | Some p =>
                  if bool_decide (d_sig p ∈ p_revoked s \/ p_in s !! d_sig p = None) then
                    match p_members s !! d_issuer p with
                    | Some alts => negb (existsb (fun a => ale (d_can p) (d_can a)) alts)
                    | None => false
                    end
                  else false
              | None => negb (r_issuer r =? gid)
              end in
  if skip then Some s
  else
    match cascade (S (size (p_in s))) [d_sig (r_revoke r)] (p_in s) (p_revoked s) (p_rdep s) [] with
    | None => None
    | Some (inp, revoked, to_drop) =>
        Some (Play (foldl drop_member (p_members s) to_drop) (<[r_sig r := r]> (p_active s)) inp revoked (p_rdep s))
    end.
Definition play_op (gid : ident) (s : play) (o : mop) : option play :=
  match o with MD d => Some (play_delegation gid s d) | MR r => play_revocation gid s r end.
(** Lines 763-877: [ops.pop()] takes from the end of the reversed order. *)
Fixpoint play_ops (gid : ident) (s : play) (l : list mop) : option play :=
  match l with
  | [] => Some s
  | o :: l => match play_op gid s o with Some s => play_ops gid s l | None => None end
  end.

(** group.rs 64-83 [Group] and state.rs 27-41 [GroupState].  The delegation and revocation
    stores shared between groups belong to the client and are not part of this model. *)
Record group := Group {
  gr_id : ident;
  gr_dheads : gmap sig dlg;
  gr_rheads : gmap sig rev;
  gr_members : gmap ident (list dlg);
  gr_active : gmap sig rev
}.
(** group.rs 749-878 [rebuild]; [None] means out of fuel. *)
Definition rebuild (g : group) : option group :=
  match reverse_topsort (gr_dheads g) (gr_rheads g) with
  | None => None
  | Some (l, all) =>
      match play_ops (gr_id g) no_play (omap (all !!.) (reverse l)) with
      | None => None
      | Some s => Some (Group (gr_id g) (gr_dheads g) (gr_rheads g) (p_members s) (p_active s))
      end
  end.

(** ** Capabilities *)

(** [Iterator::max_by] with the access order keeps the last of the largest elements. *)
Definition best_dlg (l : list dlg) : option dlg :=
  foldl (fun b d => match b with Some b => if ale (d_can b) (d_can d) then Some d else Some b | None => Some d end) None l.
(** group.rs 391-400 [get_capability]. *)
Definition get_capability (members : gmap ident (list dlg)) (id : ident) : option dlg :=
  match members !! id with Some l => best_dlg l | None => None end.

(** The members of every group and document that can be reached through pointers. *)
Notation env := (gmap ident (gmap ident (list dlg))).

(** group.rs 271-350 [transitive_members].  An entry of [explore]: agent, its access, its
    parent's access. *)
Fixpoint transitive_loop (fuel : nat) (e : env) (self : ident) (stack : list (ident * access * access))
    (seen : gset (sig * nat)) (caps : gmap ident access) : option (gmap ident access) :=
  match stack with
  | [] => Some caps
  | (m, acc, parent) :: stack =>
      match fuel with
      | 0 => None
      | S f =>
          if m =? self then transitive_loop f e self stack seen caps
          else
            let best := match caps !! m with Some x => amax x acc | None => acc end in
            let caps := <[m := amin acc parent]> caps in
            match e !! m with
            | None => transitive_loop f e self stack seen caps
            | Some mems =>
                let '(stack, seen, caps) :=
                  foldl (fun (st : list (ident * access * access) * gset (sig * nat) * gmap ident access) id =>
                           let '(stack, seen, caps) := st in
                           match get_capability mems id with
                           | None => st
                           | Some c =>
                               let caps := <[id := best]> caps in
                               let '(stack, seen) :=
                                 foldl (fun (st : list (ident * access * access) * gset (sig * nat)) d =>
                                          let '(stack, seen) := st in
                                          if decide ((d_sig d, rank (d_can c)) ∈ seen) then st
                                          else ((d_delegate d, d_can d, best) :: stack, {[ (d_sig d, rank (d_can c)) ]} ∪ seen))
                                       (stack, seen) (default [] (mems !! id)) in
                               (stack, seen, caps)
                           end) (stack, seen, caps) (order (dom mems)) in
                transitive_loop f e self stack seen caps
            end
      end
  end.
(** Fuel: the first entries, and one for every delegation and access level. *)
Definition all_dlgs (mems : gmap ident (list dlg)) : list dlg := concat (map snd (map_to_list mems)).
Definition transitive_fuel (e : env) (mems : gmap ident (list dlg)) : nat :=
  size mems + 4 * length (concat (map all_dlgs (map snd (map_to_list e)))).
Definition transitive_members (e : env) (self : ident) (mems : gmap ident (list dlg)) : option (gmap ident access) :=
  let caps := omap (get_capability mems) (order (dom mems)) in
  transitive_loop (transitive_fuel e mems) e self
    (reverse (map (fun d => (d_delegate d, d_can d, Admin)) caps))
    (list_to_set (map (fun d => (d_sig d, rank Admin)) caps)) ∅.

(** state.rs 312-330 [is_transitive_member_of]; running out of fuel counts as no (excluded by
    [transitive_members_total]). *)
Definition is_transitive_member_of (e : env) (delegate id : ident) (min : access) : bool :=
  match e !! delegate with
  | None => false
  | Some mems =>
      match transitive_members e delegate mems with
      | Some caps => match caps !! id with Some a => ale min a | None => false end
      | None => false
      end
  end.

(** ** Receiving operations *)

(** state.rs 152-183: checks every link of the chain; [can] is the access of the delegation
    that is being added, [head] runs over the delegation and its lineage. *)
Fixpoint check_chain (e : env) (can : access) (head : dlg) (lin : list dlg) : option gerror :=
  match lin with
  | [] => None
  | p :: rest =>
      if negb (ale can (d_can p)) then Some EEscalation
      else if negb (d_issuer head =? d_delegate p) && negb (is_transitive_member_of e (d_delegate p) (d_issuer head) can)
      then Some EInvalidProofChain
      else check_chain e can p rest
  end.
(** state.rs 185-199: the new heads, going through a snapshot of the old ones. *)
Definition insert_dhead (heads : gmap sig dlg) (d : dlg) : gmap sig dlg :=
  foldl (fun hs h =>
           let hs := if is_ancestor_of d h then hs else <[d_sig d := d]> hs in
           if is_ancestor_of h d then delete (d_sig h) hs else hs) heads (omap (heads !!.) (order (dom heads))).
Definition drop_rheads (rheads : gmap sig rev) (d : dlg) : gmap sig rev :=
  filter (fun x => existsb (fun r => rev_eqb r x.2) (d_after d) = false) rheads.
(** state.rs 142-203 [add_delegation]. *)
Definition add_delegation (e : env) (g : group) (d : dlg) : gres group :=
  if negb (d_subject d =? gr_id g) then GErr EInvalidSubject
  else if match d_proof d with None => negb (d_issuer d =? gr_id g) | Some _ => false end then GErr EInvalidProofChain
  else match check_chain e (d_can d) d (lineage d) with
       | Some er => GErr er
       | None => GOk (Group (gr_id g) (insert_dhead (gr_dheads g) d) (drop_rheads (gr_rheads g) d) (gr_members g) (gr_active g))
       end.
(** state.rs 206-264 [add_revocation]. *)
Definition add_revocation (e : env) (g : group) (r : rev) : gres group :=
  if negb (r_subject r =? gr_id g) then GErr EInvalidSubject
  else
    match match r_proof r with
          | Some p =>
              if negb (dlg_eqb (r_revoke r) p) && negb (is_descendant_of (r_revoke r) p) &&
                 negb (is_transitive_member_of e (d_delegate p) (r_issuer r) (d_can (r_revoke r)))
              then Some EInvalidProofChain
              else check_chain e (d_can p) p (lineage p)
          | None => if r_issuer r =? gr_id g then None else Some EInvalidProofChain
          end with
    | Some er => GErr er
    | None => GOk (Group (gr_id g) (gr_dheads g) (<[r_sig r := r]> (gr_rheads g)) (gr_members g) (gr_active g))
    end.
Definition rebuilt (x : gres group) : gres group :=
  match x with
  | GOk g => match rebuild g with Some g => GOk g | None => GErr GFuel end
  | GErr er => GErr er
  end.
(** group.rs 418-427 [receive_delegation]. *)
Definition receive_delegation (e : env) (g : group) (d : dlg) : gres group := rebuilt (add_delegation e g d).
(** group.rs 430-439 [receive_revocation], without the listener. *)
Definition receive_revocation (e : env) (g : group) (r : rev) : gres group := rebuilt (add_revocation e g r).

(** ** Making operations *)

(** group.rs 504-537: the first direct member through whom [signer] has enough access; otherwise
    the best access found. *)
Fixpoint find_proof (e : env) (mems : gmap ident (list dlg)) (signer : ident) (can : access) (ids : list ident) (best : option access) :
    gres dlg :=
  match ids with
  | [] => match best with Some _ => GErr EAccessEscalation | None => GErr ENoProof end
  | i :: ids =>
      match get_capability mems i with
      | None => find_proof e mems signer can ids best
      | Some d =>
          match e !! d_delegate d with
          | None => find_proof e mems signer can ids best
          | Some sub =>
              match transitive_members e (d_delegate d) sub with
              | None => GErr GFuel
              | Some caps =>
                  match caps !! signer with
                  | None => find_proof e mems signer can ids best
                  | Some a => if ale can a then GOk d
                              else find_proof e mems signer can ids
                                     (match best with Some b => if alt b a then Some a else Some b | None => Some a end)
                  end
              end
          end
      end
  end.
(** group.rs 470-547 [add_member_with_manual_content] by [signer]; [s] is the signature of the new
    delegation, [content] its [after_content]. *)
Definition add_member (e : env) (g : group) (who : ident) (can : access) (signer : ident) (content : nat) (s : sig) : gres (group * dlg) :=
  let proof := if gr_id g =? signer then GOk None
               else match get_capability (gr_members g) signer with
                    | Some p => if alt (d_can p) can then GErr EAccessEscalation else GOk (Some p)
                    | None => match find_proof e (gr_members g) signer can (order (dom (gr_members g))) None with
                              | GOk p => GOk (Some p)
                              | GErr er => GErr er
                              end
                    end in
  match proof with
  | GErr er => GErr er
  | GOk p =>
      let d := Dlg s signer who can p (omap (gr_rheads g !!.) (order (dom (gr_rheads g)))) content in
      match receive_delegation e g d with
      | GOk g => GOk (g, d)
      | GErr er => GErr er
      end
  end.

(** [build_revocation] (728-746) followed by [receive_revocation]; [sigs] supplies the signatures of
    the operations to come. *)
Definition revoke_one (e : env) (g : group) (signer : ident) (d : dlg) (proof : option dlg) (content : nat) (sigs : list sig) :
    gres (group * rev * list sig) :=
  match sigs with
  | [] => GErr GFuel
  | s :: sigs =>
      let r := Rev s signer d proof content in
      match receive_revocation e g r with
      | GOk g => GOk (g, r, sigs)
      | GErr er => GErr er
      end
  end.
(** group.rs 590-623: with the signer's own admin delegations.  Line 596 skips those whose
    delegate is not the member to remove, so only self-removal comes through. *)
Fixpoint revoke_as_admin (e : env) (g : group) (signer target : ident) (d : dlg) (mine : list dlg) (content : nat) (sigs : list sig) :
    gres (group * list rev * list sig) :=
  match mine with
  | [] => GOk (g, [], sigs)
  | m :: mine =>
      if negb (d_delegate m =? target) || negb (bool_decide (d_can m = Admin))
      then revoke_as_admin e g signer target d mine content sigs
      else match revoke_one e g signer d (Some m) content sigs with
           | GErr er => GErr er
           | GOk (g, r, sigs) =>
               match revoke_as_admin e g signer target d mine content sigs with
               | GErr er => GErr er
               | GOk (g, rs, sigs) => GOk (g, r :: rs, sigs)
               end
           end
  end.
(** group.rs 662-690: through a group the signer belongs to. *)
Fixpoint find_revoker (e : env) (mems : gmap ident (list dlg)) (signer : ident) (can : access) (ids : list ident) : gres (option dlg) :=
  match ids with
  | [] => GOk None
  | i :: ids =>
      match get_capability mems i with
      | None => find_revoker e mems signer can ids
      | Some d =>
          match e !! d_delegate d with
          | None => find_revoker e mems signer can ids
          | Some sub =>
              match transitive_members e (d_delegate d) sub with
              | None => GErr GFuel
              | Some caps => match caps !! signer with
                             | Some a => if ale can a then GOk (Some d) else find_revoker e mems signer can ids
                             | None => find_revoker e mems signer can ids
                             end
              end
          end
      end
  end.
(** group.rs 587-695: one delegation of the member to remove. *)
Definition revoke_delegation (e : env) (g : group) (signer target : ident) (d : dlg) (content : nat) (sigs : list sig) :
    gres (group * list rev * list sig) :=
  match revoke_as_admin e g signer target d (default [] (gr_members g !! signer)) content sigs with
  | GErr er => GErr er
  | GOk (g, rs, sigs) =>
      let proof := if d_issuer d =? signer then Some d
                   else List.find (fun a => d_issuer a =? signer) (lineage d) in
      match proof with
      | Some p =>
          match revoke_one e g signer d (Some p) content sigs with
          | GErr er => GErr er
          | GOk (g, r, sigs) => GOk (g, rs ++ [r], sigs)
          end
      | None =>
          match rs with
          | _ :: _ => GOk (g, rs, sigs)
          | [] =>
              match find_revoker e (gr_members g) signer (d_can d) (order (dom (gr_members g))) with
              | GErr er => GErr er
              | GOk None => GErr ENoProof
              | GOk (Some p) =>
                  match revoke_one e g signer d (Some p) content sigs with
                  | GErr er => GErr er
                  | GOk (g, r, sigs) => GOk (g, rs ++ [r], sigs)
                  end
              end
          end
      end
  end.
Fixpoint revoke_delegations (e : env) (g : group) (signer target : ident) (l : list dlg) (content : nat) (sigs : list sig) :
    gres (group * list rev * list sig) :=
  match l with
  | [] => GOk (g, [], sigs)
  | d :: l =>
      match (if signer =? gr_id g
             then match revoke_one e g signer d None content sigs with
                  | GErr er => GErr er
                  | GOk (g, r, sigs) => GOk (g, [r], sigs)
                  end
             else revoke_delegation e g signer target d content sigs) with
      | GErr er => GErr er
      | GOk (g, rs, sigs) =>
          match revoke_delegations e g signer target l content sigs with
          | GErr er => GErr er
          | GOk (g, rs', sigs) => GOk (g, rs ++ rs', sigs)
          end
      end
  end.
(** group.rs 703-719: what the removed member had granted is granted again by the signer. *)
Fixpoint redelegate (e : env) (g : group) (signer target : ident) (l : list dlg) (content : nat) (sigs : list sig) :
    gres (group * list dlg) :=
  match l with
  | [] => GOk (g, [])
  | d :: l =>
      if negb (d_delegate d =? target) && match d_proof d with Some p => d_delegate p =? target | None => false end then
        match sigs with
        | [] => GErr GFuel
        | s :: sigs =>
            match add_member e g (d_delegate d) (d_can d) signer content s with
            | GErr er => GErr er
            | GOk (g, d') =>
                match redelegate e g signer target l content sigs with
                | GErr er => GErr er
                | GOk (g, ds) => GOk (g, d' :: ds)
                end
            end
        end
      else redelegate e g signer target l content sigs
  end.
(** group.rs 556-726 [revoke_member].  On an error the code keeps the changes made so far; this
    function only reports the error. *)
Definition revoke_member (e : env) (g : group) (target : ident) (retain : bool) (signer : ident) (content : nat) (sigs : list sig) :
    gres (group * list rev * list dlg) :=
  let og := concat (omap (gr_members g !!.) (order (dom (gr_members g)))) in
  match default [] (gr_members g !! target) with
  | [] => GOk (Group (gr_id g) (gr_dheads g) (gr_rheads g) (delete target (gr_members g)) (gr_active g), [], [])
  | ds =>
      match revoke_delegations e g signer target ds content sigs with
      | GErr er => GErr er
      | GOk (g, rs, sigs) =>
          if retain then
            match redelegate e g signer target og content sigs with
            | GErr er => GErr er
            | GOk (g, ns) => GOk (g, rs, ns)
            end
          else GOk (g, rs, [])
      end
  end.

(** group.rs 92-110 [Group::new] / state.rs 47-89 [GroupState::new]: nothing is checked, and the
    group gets the identity of the issuer of the given delegation. *)
Definition new_group (head : dlg) : option group :=
  rebuild (Group (d_issuer head) {[ d_sig head := head ]} ∅ ∅ ∅).
(** group.rs 158-222 [generate_after_content]: one admin delegation for every parent, signed by the
    group's key. *)
Definition generate_group (id : ident) (parents : list (ident * sig)) (content : nat) : option group :=
  rebuild (Group id (list_to_map (map (fun x => (x.2, Dlg x.2 id x.1 Admin None [] content)) parents)) ∅ ∅ ∅).

(** group.rs 355-379 [revoked_members]: ids whose delegation was revoked and who hold none now. *)
Definition revoked_members (g : group) : gmap ident access :=
  foldl (fun m r =>
           let id := d_delegate (r_revoke r) in
           match gr_members g !! id with
           | Some _ => m
           | None => <[id := match m !! id with Some a => amax a (d_can (r_revoke r)) | None => d_can (r_revoke r) end]> m
           end) ∅ (omap (gr_active g !!.) (order (dom (gr_active g)))).

(** ** Individuals behind an agent *)

(** agent.rs 84-120 [individual_ids].  Agents without an entry in [env] are individuals (or the
    active agent).  Fuel: every delegation is pushed at most once. *)
Fixpoint individual_loop (fuel : nat) (e : env) (stack : list ident) (seen ids : gset ident) : option (gset ident) :=
  match stack with
  | [] => Some ids
  | i :: stack =>
      match fuel with
      | 0 => None
      | S f =>
          if decide (i ∈ seen) then individual_loop f e stack seen ids
          else
            let seen := {[ i ]} ∪ seen in
            match e !! i with
            | None => individual_loop f e stack seen ({[ i ]} ∪ ids)
            | Some mems =>
                individual_loop f e (reverse (map d_delegate (concat (omap (mems !!.) (order (dom mems))))) ++ stack) seen ids
            end
      end
  end.
Definition individual_ids (e : env) (agent : ident) : option (gset ident) :=
  individual_loop (S (length (concat (map all_dlgs (map snd (map_to_list e)))))) e [agent] ∅ ∅.
(** group.rs 236-243 [Group::individual_ids]: through the first delegation of every member. *)
Definition group_individual_ids (e : env) (mems : gmap ident (list dlg)) : option (gset ident) :=
  foldl (fun acc i =>
           match acc, mems !! i with
           | Some s, Some (d :: _) => match individual_ids e (d_delegate d) with Some s' => Some (s' ∪ s) | None => None end
           | Some s, _ => Some s
           | None, _ => None
           end) (Some ∅) (order (dom mems)).
(** group.rs 245-263 [pick_individual_prekeys]: the individuals whose prekeys are returned; the
    keys themselves are in [PrekeyModel].  agent.rs 122-171 walks like [individual_ids]. *)
Definition prekey_individuals (e : env) (self public : ident) (mems : gmap ident (list dlg)) : option (gset ident) :=
  match transitive_members e self mems with
  | None => None
  | Some caps =>
      foldl (fun acc i =>
               match acc with
               | Some s => if i =? public then Some ({[ public ]} ∪ s)
                           else match individual_ids e i with Some s' => Some (s' ∪ s) | None => None end
               | None => None
               end) (Some ∅) (order (dom caps))
  end.
End group.
