(** Which locks the calls on one client take, and in which order.

    Every part of a client is behind a [futures::lock::Mutex] (keyhive.rs 63 and 97-131): the active
    agent, the source of randomness, the maps of groups, documents and individuals, the stores of
    delegations and revocations, the pending events, and every group, document and individual.  A task
    that wants a lock that is taken waits; the locks are not re-entrant, so this includes a lock that the
    task has itself.

    A call is the sequence of locks it takes and drops.  A guard that is a temporary lives to the end of
    its statement; in [if let .. else ..] to the end of the last [else] (edition 2021, Cargo.toml 18).

    Simplifications: the locks of groups and individuals that nobody else has yet are left out, listeners
    and signers take no locks, and a walk over the members visits them in any order and any number of
    times.  Memberships may change during the calls: then the world has all that there are at some time,
    and a walk visits some of them. *)
From Coq Require Import Arith Lia.
From stdpp Require Import base list gmap relations.
From Verif Require Import KeysModel HiveModel DocModel.

Notation ident := nat (only parsing).

(** The locks of a client: keyhive.rs 97-131, active.rs 44-62, store/ciphertext/memory.rs 25-35. *)
Inductive lock := LActive | LRng | LGroups | LDocs | LIndies | LDlgs | LRevs | LPairs | LPending | LStore
  | LItem (i : ident)    (* a group or document *)
  | LIndie (i : ident).  (* an individual *)
Global Instance lock_dec : EqDecision lock.
Proof. solve_decision. Defined.

Inductive act := Take (l : lock) | Drop (l : lock).
Notation prog := (list act).
Definition touch (l : lock) : prog := [Take l; Drop l].
Definition under (l : lock) (p : prog) : prog := Take l :: p ++ [Drop l].
Definition touches (ls : list lock) : prog := concat (map touch ls).

(** ** Tasks *)

(** A task holds locks and has some of its program left. *)
Notation task := (list lock * prog)%type.
Notation pool := (list (list lock * prog)).
Fixpoint remove1 (l : lock) (h : list lock) : list lock :=
  match h with [] => [] | x :: h => if bool_decide (x = l) then h else x :: remove1 l h end.
Definition taken (P : pool) (l : lock) : bool := existsb (fun t => bool_decide (l ∈ t.1)) P.
(** The task [n] goes on. *)
Definition fire (n : nat) (P : pool) : option pool :=
  match P !! n with
  | Some (h, Take l :: p) => if taken P l then None else Some (<[n := (l :: h, p)]> P)
  | Some (h, Drop l :: p) => Some (<[n := (remove1 l h, p)]> P)
  | _ => None
  end.
(** The task [n] ends early, with an error or because its future is dropped: its guards are dropped. *)
Definition cancel (n : nat) (P : pool) : pool := <[n := ([], [])]> P.
Definition start_all (ps : list prog) : pool := map (fun p => ([], p)) ps.

(** ** What the calls take *)

(** What is there when the calls are made: who the client is, what is a group or document, who is (or
    was, or becomes) a member of what, and the keys of the maps.  If [w_still], none of this changes
    during the calls. *)
Record world := World {
  w_still : bool;
  w_me : ident;
  w_item : ident -> bool;
  w_inside : ident -> list ident;
  w_groups : list ident;
  w_docs : list ident;
  w_indies : list ident
}.

Section world.
Context (w : world).
Notation me := (w_me w).
(** [b] is behind [a]: a member, or a member of a member, and so on. *)
Definition behind : ident -> ident -> Prop := tc (fun a b => b ∈ w_inside w a).
(** A list of those with [P]: all of them if nothing changes. *)
Definition finds (P : ident -> Prop) (l : list ident) : Prop :=
  (forall v, v ∈ l -> P v) /\ (w_still w = true -> forall v, P v -> v ∈ l).

(** group.rs 270-347 [transitive_members] of [i], whose lock is held: the groups and documents behind
    [i], but not [i] itself (310).  Each is locked for its members and again for every capability. *)
Definition visits (i : ident) (vs : list ident) : Prop := finds (fun v => behind i v /\ w_item w v = true /\ v <> i) vs.
Definition walk (vs : list ident) : prog := touches (map LItem vs).
(** membered.rs 101-106: the same with the lock taken. *)
Definition members_of (i : ident) (p : prog) : Prop := exists vs, visits i vs /\ p = under (LItem i) (walk vs).
(** For every one of [is]. *)
Inductive each (f : ident -> prog -> Prop) : list ident -> prog -> Prop :=
  | each_nil : each f [] []
  | each_cons i is p q : f i p -> each f is q -> each f (i :: is) (p ++ q).
(** agent.rs 181-201 [key_ops], 128-167: one visit of [pick_individual_prekeys]. *)
Definition reads_keys (a : ident) : prog :=
  if w_item w a then touch (LItem a) else if bool_decide (a = me) then under LActive (touch (LIndie me)) else touch (LIndie a).
(** agent.rs 119-172 [pick_individual_prekeys]: the agent and everybody behind. *)
Definition picks (a : ident) (p : prog) : Prop :=
  exists l, finds (fun v => v = a \/ behind a v) l /\ p = concat (map reads_keys l).
(** agent.rs 84-117 [individual_ids]: only groups and documents are locked. *)
Definition finds_ids (a : ident) (p : prog) : Prop :=
  exists l, finds (fun v => (v = a \/ behind a v) /\ w_item w v = true) l /\ p = walk l.
(** state.rs 312-330 for some of the delegates of [i], and group.rs 548-566: is somebody behind them? *)
Definition checks (i : ident) (p : prog) : Prop := exists ms, (forall m, m ∈ ms -> m ∈ w_inside w i /\ w_item w m = true) /\ each members_of ms p.
(** Membership operations that the group [i], whose lock is held, takes: state.rs 144-264. *)
Inductive changes (i : ident) : prog -> Prop :=
  | ch_nil : changes i []
  | ch_dlg p q : checks i p -> changes i q -> changes i (p ++ touch LDlgs ++ q)
  | ch_rev p q : checks i p -> changes i q -> changes i (p ++ touch LRevs ++ q).
(** keyhive.rs 1396-1425 [get_agent], 1366-1393 [get_peer]: until it is found. *)
Definition looks (p : prog) : Prop := exists n, p = touches (take n [LActive; LDocs; LGroups; LIndies]).
(** state.rs 47-88 [GroupState::new]: the operations of a new group are stored. *)
Definition stores (p : prog) : Prop := exists ls, (forall l, l ∈ ls -> l = LDlgs \/ l = LRevs) /\ p = touches ls.
(** keyhive.rs 766-788 [docs_reachable_by_agent]. *)
Definition reaches (p : prog) : Prop := exists ds q, finds (fun d => d ∈ w_docs w) ds /\ each members_of ds q /\ p = touch LDocs ++ q.
(** keyhive.rs 790-823 [membered_reachable_by_agent]. *)
Definition reaches_all (p : prog) : Prop := exists gs ds q r, finds (fun g => g ∈ w_groups w) gs /\ finds (fun d => d ∈ w_docs w) ds /\
  each members_of gs q /\ each members_of ds r /\ p = touch LGroups ++ q ++ touch LDocs ++ r.
(** Locking some groups and documents one after the other. *)
Definition some_items (p : prog) : Prop := exists vs, p = walk vs.

(** Where the subject of a received operation is found. *)
Inductive place := InGroups | InDocs | InIndies (revs : nat) | Nowhere.

Inductive lcall :=
  | CExpand | CRotate | CCard | COwnCard | CSecrets
  | CNewGroup (n : nat) | CNewDoc (parents : list ident)
  | CRegister
  | CAddToGroup (g who : ident) (reader : bool) (docs : list ident) | CAddToDoc (d who : ident) (reader : bool) (docs : list ident)
  | CRevokeFromGroup (g who : ident) | CRevokeFromDoc (d who : ident)
  | CEncrypt (d : ident) | CDecrypt (d : ident) | CCausal (d : ident)
  | CReachable | CReachableBy | CMembers (i : ident)
  | COpsFor | COpsAll | CKeysFor | CKeysAll | CCgkaFor | CCgkaAll | CCgkaDoc (d : ident)
  | CGetOp | CGet
  | CReceiveKey (a : ident) | CReceiveDlg (i : ident) (pl : place) | CReceiveRev (i : ident) (pl : place) | CReceiveCgka (d : ident) (invite : bool)
  | CPending | CArchive | CIngestArchive | CStats.

(** active.rs 178-219. *)
Definition rotate : prog := touch LRng ++ touch LPairs ++ touch (LIndie me).
(** keyhive.rs 1835-1907 [promote_individual_to_group]; [revs] revocations of the group are stored already. *)
Definition promotes (i : ident) (revs : nat) (p : prog) : Prop :=
  exists q, stores q /\ p = touch (LIndie i) ++ q ++ touch LDlgs ++ under LRevs (touches (replicate revs LDlgs)).

Definition takes (c : lcall) (p : prog) : Prop :=
  match c with
  (* keyhive.rs 382-389, active.rs 222-262 *)
  | CExpand => p = under LActive (touch LRng ++ touch (LIndie me) ++ touch LPairs)
  (* keyhive.rs 370-380 *)
  | CRotate => p = under LActive rotate
  (* keyhive.rs 318-328, active.rs 156-170 *)
  | CCard => p = under LActive (touch (LIndie me) ++ rotate ++ rotate)
  (* keyhive.rs 330-340 *)
  | COwnCard => p = under LActive (touch (LIndie me))
  (* keyhive.rs 1910-1926 [export_prekey_secrets]; [import_prekey_secrets] goes on like [CPending] and receiving *)
  | CSecrets => p = under LActive (touch LPairs)
  (* keyhive.rs 246-267: the guard of line 254 lives to the end of the statement in line 263; group.rs 133-157
     and 189: the source of randomness is held throughout *)
  | CNewGroup n => p = under LActive (under LRng (touches (replicate n LDlgs))) ++ touch LGroups
  (* keyhive.rs 272-316; document.rs 167-226: the source of randomness is held to the end, group.rs 243-263 *)
  | CNewDoc ps => exists q1 vs ts q2, (forall q, q ∈ q1 -> looks q) /\
      finds (fun v => w_item w v = true /\ exists a, a ∈ me :: ps /\ (v = a \/ behind a v)) vs /\
      finds (fun v => exists a, a ∈ me :: ps /\ (v = a \/ behind a v)) ts /\ each picks ts q2 /\
      p = concat q1 ++ touch LActive ++ touch LActive ++ under LRng (touches (replicate (length (me :: ps)) LDlgs) ++ walk vs ++ q2) ++
          touches (replicate (length (me :: ps)) LDlgs) ++ touch LDocs
  (* keyhive.rs 396-417, 419-430, 432-463, 342-366 *)
  | CRegister => exists q ls, looks q /\ (forall l, l ∈ ls -> l = LDlgs \/ l = LRevs \/ l = LGroups \/ l = LDocs \/ l = LIndies \/ exists i, l = LIndie i) /\ p = q ++ touches ls
  (* keyhive.rs 482-531, group.rs 443-463: [docs] are the relevant documents *)
  | CAddToGroup g who reader docs => exists q1 q2 ds, changes g q1 /\ finds (fun d => d ∈ w_docs w) ds /\
      (reader = true -> each (fun d q => exists q1 q2, members_of d q1 /\ (q2 = [] \/ exists q, picks who q /\ q2 = q ++ touch (LItem d)) /\ q = q1 ++ q2) ds q2) /\ (reader = false -> q2 = []) /\
      p = touch LActive ++ under (LItem g) (walk docs ++ q1) ++ (if reader then touch LDocs else []) ++ q2
  (* keyhive.rs 532-543, document.rs 228-274: the prekeys are picked while the document is locked *)
  | CAddToDoc d who reader docs => exists q1 q2, changes d q1 /\ (if reader then picks who q2 else q2 = []) /\
      p = touch LActive ++ under (LItem d) (walk docs ++ q1 ++ q2)
  (* keyhive.rs 554-638, 746-752: the active agent stays locked while the documents are walked through *)
  | CRevokeFromGroup g who => exists r ds q1 q2 q3 es, reaches r /\ finds_ids who q1 /\ changes g q2 /\ finds (fun d => d ∈ w_docs w) es /\
      each (fun d q => exists q1, members_of d q1 /\ q = q1 ++ touch (LItem d)) es q3 /\
      p = under LActive r ++ walk ds ++ touch LActive ++ touch (LItem g) ++ q1 ++ under (LItem g) q2 ++ touch LDocs ++ q3
  (* the same, document.rs 292-338 *)
  | CRevokeFromDoc d who => exists r ds q1 q2 q3 ms, reaches r /\ (q1 = [] \/ who ∈ w_inside w d /\ finds_ids who q1) /\ changes d q2 /\
      (forall m, m ∈ ms -> m ∈ w_inside w d) /\ each finds_ids ms q3 /\
      p = under LActive r ++ walk ds ++ touch LActive ++ under (LItem d) (q1 ++ q2 ++ q3)
  (* keyhive.rs 663-688, 729-743 [force_pcs_update] *)
  | CEncrypt d => p = touch LActive ++ under LRng (touch (LItem d))
  (* keyhive.rs 690-712 *)
  | CDecrypt d => p = touch (LItem d)
  (* keyhive.rs 714-727 *)
  | CCausal d => exists n, p = under (LItem d) (touches (replicate n LStore))
  (* keyhive.rs 746-752 *)
  | CReachable => exists r, reaches r /\ p = under LActive r
  (* keyhive.rs 766-823 *)
  | CReachableBy => reaches p \/ reaches_all p
  (* keyhive.rs 754-763 *)
  | CMembers i => members_of i p
  (* keyhive.rs 919-994: the heads, the revocations of the agent, then groups on the way *)
  | COpsFor => exists r q1 q2, reaches_all r /\ some_items q1 /\ some_items q2 /\ p = r ++ q1 ++ touch LRevs ++ q2
  (* keyhive.rs 996-1082, membership_operation.rs 571-676: nothing is locked under the revocations *)
  | COpsAll => exists q r gs ds, finds (fun g => g ∈ w_groups w) gs /\ finds (fun d => d ∈ w_docs w) ds /\
      each (fun g q => exists q1 q2, members_of g q1 /\ some_items q2 /\ q = q1 ++ q2) gs q /\
      each (fun d q => exists q1 q2, members_of d q1 /\ some_items q2 /\ q = q1 ++ q2) ds r /\ p = touch LGroups ++ q ++ touch LDocs ++ r ++ touch LRevs
  (* keyhive.rs 1084-1157 *)
  | CKeysFor => exists l q r gs ds, finds (fun g => g ∈ w_groups w) gs /\ finds (fun d => d ∈ w_docs w) ds /\
      each (fun g q => exists q1 l, members_of g q1 /\ q = q1 ++ concat (map reads_keys l)) gs q /\
      each (fun g q => exists q1 l, members_of g q1 /\ q = q1 ++ concat (map reads_keys l)) ds r /\
      p = under LActive (touch (LIndie me)) ++ concat (map reads_keys l) ++ touch LGroups ++ q ++ touch LDocs ++ r
  (* keyhive.rs 1169-1303 *)
  | CKeysAll => exists q r l is gs ds, finds (fun g => g ∈ w_groups w) gs /\ finds (fun d => d ∈ w_docs w) ds /\
      each members_of gs q /\ each members_of ds r /\ finds (fun i => i ∈ w_indies w) is /\
      p = under LActive (touch (LIndie me)) ++ touch LGroups ++ touch LDocs ++ q ++ r ++ concat (map reads_keys l) ++ under LIndies (touches (map LIndie is)) ++ touch LIndies
  (* keyhive.rs 875-897 *)
  | CCgkaFor => exists r q, reaches r /\ some_items q /\ p = r ++ q
  (* keyhive.rs 1310-1345: documents without group-key operations are not walked through *)
  | CCgkaAll => exists q ds, finds (fun d => d ∈ w_docs w) ds /\ each (fun d q => members_of d q \/ q = touch (LItem d)) ds q /\ p = touch LDocs ++ q
  (* keyhive.rs 899-916 *)
  | CCgkaDoc d => p = under LDocs (touch (LItem d))
  (* keyhive.rs 465-480 *)
  | CGetOp => p = under LDlgs [] \/ p = under LDlgs (touch LRevs)
  (* keyhive.rs 165-174, 1347-1425 *)
  | CGet => looks p \/ p = touch LGroups \/ p = touch LDocs \/ p = touch LIndies
  (* keyhive.rs 1535-1585 *)
  | CReceiveKey a => exists q, looks q /\ (p = q \/ p = q ++ touch (LIndie a) ++ touch LIndies ++ reads_keys a \/ p = q ++ reads_keys a)
  (* keyhive.rs 1587-1680, with 1456-1502 *)
  | CReceiveDlg i pl => exists q1 q2 q3, stores q1 /\ looks q2 /\ stores q3 /\
      match pl with
      | InGroups => exists q, checks i q /\ p = q1 ++ q2 ++ q3 ++ under LGroups (under (LItem i) (q ++ touch LDlgs))
      | InDocs => exists q, checks i q /\ p = q1 ++ q2 ++ q3 ++ under LGroups (under LDocs (under (LItem i) (q ++ touch LDlgs)))
      | InIndies revs => exists q, promotes i revs q /\ p = q1 ++ q2 ++ q3 ++ under LGroups (under LDocs (under LIndies q))
      | Nowhere => exists q l, stores q /\ (l = LDocs \/ l = LGroups) /\ p = q1 ++ q2 ++ q3 ++ under LGroups (under LDocs (touch LIndies)) ++ q ++ touch l
      end
  (* keyhive.rs 1682-1745, with 1504-1533; the guards of 1704, 1710 and 1715 are alive in line 1739 *)
  | CReceiveRev i pl => exists q1, stores q1 /\
      match pl with
      | InGroups => exists q, checks i q /\ p = q1 ++ under LGroups (under (LItem i) (q ++ touch LRevs))
      | InDocs => exists q, checks i q /\ p = q1 ++ under LGroups (under LDocs (under (LItem i) (q ++ touch LRevs)))
      | InIndies revs => exists q q', promotes i revs q /\ checks i q' /\ p = q1 ++ under LGroups (under LDocs (under LIndies (q ++ q' ++ touch LRevs)))
      | Nowhere => exists q q', stores q /\ checks i q' /\ p = q1 ++ under LGroups (under LDocs (under LIndies (q ++ touch LGroups ++ q' ++ touch LRevs)))
      end
  (* keyhive.rs 1781-1832: the active agent stays locked for an operation that adds it, or adds Public *)
  | CReceiveCgka d invite => p = touch LDocs ++ touch (LItem d) \/ p = touch LDocs ++ touch LActive ++ touch (LItem d) \/
      invite = true /\ (p = touch LDocs ++ under LActive (touch LPairs ++ touch (LItem d)) \/ p = touch LDocs ++ under LActive (touch (LItem d)))
  (* keyhive.rs 825-834, 2307-2310, 2339-2358: around the events that are received *)
  | CPending => p = touch LPending
  (* keyhive.rs 1929-1985, active.rs 305-310: both guards live to the end of the expression *)
  | CArchive => exists is gs ds, finds (fun i => i ∈ w_indies w) is /\ finds (fun g => g ∈ w_groups w) gs /\ finds (fun d => d ∈ w_docs w) ds /\
      p = under LDlgs (touch LRevs) ++ under LIndies (touches (map LIndie is)) ++ under LActive (under LPairs (touch (LIndie me))) ++
          under LGroups (walk gs) ++ under LDocs (walk ds) ++ touch LPending
  (* keyhive.rs 2250-2282; then it goes on like [CPending] and receiving *)
  | CIngestArchive => exists l, p = under LActive (touch LPairs ++ touch (LIndie me)) ++ concat (map (fun i => under LIndies (touch (LIndie i))) l)
  (* keyhive.rs 2380-2490: the pending events stay locked, and the guards of 2461-2465 live to the end *)
  | CStats => exists is ds, finds (fun i => i ∈ w_indies w) is /\ finds (fun d => d ∈ w_docs w) ds /\
      p = under LActive (touch (LIndie me)) ++ under LIndies (touches (map LIndie is)) ++ under LDocs (walk ds) ++
          under LPending (under LIndies (under LGroups (under LDocs (under LDlgs (touch LRevs)))))
  end.
(** A task makes some calls one after the other. *)
Fixpoint takes_all (cs : list lcall) (p : prog) : Prop :=
  match cs with
  | [] => p = []
  | c :: cs => exists q r, takes c q /\ takes_all cs r /\ p = q ++ r
  end.
End world.

(** The world of a client. *)
Definition world_of (h : client) : world :=
  World true (me h) (fun i => bool_decide (is_Some (h_docs h !! i)) || bool_decide (is_Some (h_groups h !! i)))
    (fun i => match h_env h !! i with Some m => map fst (map_to_list m) | None => [] end)
    (map fst (map_to_list (h_groups h))) (map fst (map_to_list (h_docs h))) (map fst (map_to_list (PrekeyModel.ks_indies (h_keys h)))).
