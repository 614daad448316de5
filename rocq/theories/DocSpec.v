(** Specification vocabulary for documents: who is a member and who has a place in the group key. *)
From Coq Require Import Arith.
From stdpp Require Import base list gmap relations.
From Verif Require Import ResModel KeysModel TreeModel TreeSpec TreeOps TreeRun OpsModel CgkaModel.
From Verif Require Import AccessModel GroupModel CgkaSpec GroupSpec PrekeyModel HiveModel HiveSpec DocModel.

Notation env := (gmap ident (gmap ident (list dlg))).

(** The individuals that an agent stands for: itself, or those behind a group or document. *)
Definition stands_for (e : env) (a i : ident) : Prop := rtc (direct e) a i /\ e !! i = None.
(** An individual that belongs to [j], directly or through groups and documents. *)
Definition person_of (e : env) (j i : ident) : Prop := belongs e j i /\ e !! i = None.
(** [i] has a place in the group key of document [j]. *)
Definition in_key (h : client) (j i : ident) : Prop := exists c, cgka_of h j = Some c /\ contains_id (c_tree c) i = true.

(** The group key of document [j] was made here and is up to date: every operation was applied to its
    tree.  [key], [ops] and [pcs] are its history: it started with the document's own place, with
    [key], the operations [ops] followed, and the path changes [pcs] were published. *)
Definition up_to_date (h : client) (j : ident) (key : share_key) (ops : list tree_op) (pcs : list path_change) : Prop :=
  exists c, cgka_of h j = Some c /\ c_owner c = j /\ c_pending c = false /\ has_single_head (c_graph c) = true /\
    TreeRun.reachable j key ops (c_tree c) pcs /\ contains_id (c_tree c) j = true.
Definition kept (h : client) (j : ident) : Prop := exists key ops pcs, up_to_date h j key ops pcs.

(** Membership operations that can be told apart by their signatures, no two of which say the same
    about the same group or document. *)
Definition well_signed (P : mop -> Prop) : Prop := genuine P /\ forall i, distinct_grants (fun o => P o /\ op_subject o = i).
(** Every group and document of the client has a history of membership operations among [P], no
    identifier is both, and the public individual is neither. *)
Definition tidy (order : gset nat -> list nat) (P : mop -> Prop) (h : client) : Prop :=
  (forall i g, has_group h i g -> gr_id g = i /\ exists ops, history order ops g /\ forall o, o ∈ ops -> P o) /\
  (forall i, is_Some (h_groups h !! i) -> is_Some (h_docs h !! i) -> False) /\
  h_env h !! ks_public (h_keys h) = None.

(** [i] is new to the client. *)
Definition unused (h : client) (i : ident) : Prop :=
  h_env h !! i = None /\ (forall x, ~ direct (h_env h) x i) /\ i <> ks_public (h_keys h) /\ cgka_of h i = None.
(** The members of [i] before and after: only [who] joined, only [target] left. *)
Definition only_joined (e e' : env) (i who : ident) : Prop := forall x, direct e' i x <-> direct e i x \/ x = who.
Definition only_left (e e' : env) (i target : ident) : Prop := forall x, direct e' i x <-> direct e i x /\ x <> target.
(** No document contains the document [i]. *)
Definition not_nested (h : client) (i : ident) : Prop := is_Some (h_docs h !! i) -> forall j, is_Some (h_docs h !! j) -> ~ belongs (h_env h) j i.

(** ** Clients that manage groups and documents by themselves

    The membership changes give read access or more, nobody but the member in question joins or
    leaves, and documents are not nested when their members change. *)
Section managed.
Context (order : gset nat -> list nat) (horder : gset digest -> list digest) (rorder : gset (member_id * nat) -> list (member_id * nat)).
Context (pick : ident -> ident -> share_key) (P : mop -> Prop).
Inductive managed : client -> Prop :=
| mg_start h : h_groups h = ∅ -> h_docs h = ∅ -> cs_docs (h_cg h) = ∅ -> managed h
| mg_group h i parents content h' : managed h -> unused h i -> parents <> [] -> NoDup parents.*2 -> i ∉ parents.*1 ->
    (forall x, x ∈ parents -> P (MD (Dlg x.2 i x.1 Admin None [] content))) ->
    hive_generate_group order h i parents content = (h', DOk tt) -> managed h'
| mg_doc h i parents content sk h0 hs hu rng h' ops : managed h -> unused h i -> parents <> [] -> NoDup parents.*2 -> i ∉ parents.*1 ->
    (forall x, x ∈ parents -> P (MD (Dlg x.2 i x.1 Admin None [] content))) ->
    hive_generate_doc order horder rorder pick h i parents content sk h0 hs hu rng = (h', DOk ops) -> managed h'
| mg_add h i who can content s hs h' d ops : managed h -> is_reader can = true -> not_nested h i ->
    hive_add_member order horder rorder pick h i who can content s hs = (h', DOk (d, ops)) -> P (MD d) ->
    only_joined (h_env h) (h_env h') i who -> managed h'
| mg_revoke h i target retain content sigs hs h' rs ds ops : managed h -> not_nested h i ->
    hive_revoke_member order horder rorder h i target retain content sigs hs = (h', DOk (rs, ds, ops)) ->
    (forall r, r ∈ rs -> P (MR r)) -> (forall d, d ∈ ds -> P (MD d)) ->
    only_left (h_env h) (h_env h') i target -> managed h'
| mg_update h j sk x rng h' r : managed h -> hive_update horder rorder h j sk x rng = (h', r) -> managed h'
| mg_encrypt h j ref content preds sk x rng h' r : managed h -> hive_encrypt horder rorder h j ref content preds sk x rng = (h', r) -> managed h'
| mg_decrypt h j e h' r : managed h -> hive_decrypt rorder h j e = (h', r) -> managed h'.
End managed.

(** ** Any client: whatever calls it makes and whatever events it receives *)
Section acting.
Context (order : gset nat -> list nat) (horder : gset digest -> list digest) (rorder : gset (member_id * nat) -> list (member_id * nat)).
Context (pick : ident -> ident -> share_key) (doc_content : nat -> ident -> bool).
Inductive acting : client -> Prop :=
| ac_start h : h_groups h = ∅ -> h_docs h = ∅ -> cs_docs (h_cg h) = ∅ -> acting h
| ac_group h i parents content h' r : acting h -> hive_generate_group order h i parents content = (h', r) -> acting h'
| ac_doc h i parents content sk h0 hs hu rng h' r : acting h -> hive_generate_doc order horder rorder pick h i parents content sk h0 hs hu rng = (h', r) -> acting h'
| ac_add h i who can content s hs h' r : acting h -> hive_add_member order horder rorder pick h i who can content s hs = (h', r) -> acting h'
| ac_revoke h i target retain content sigs hs h' r : acting h -> hive_revoke_member order horder rorder h i target retain content sigs hs = (h', r) -> acting h'
| ac_update h j sk x rng h' r : acting h -> hive_update horder rorder h j sk x rng = (h', r) -> acting h'
| ac_encrypt h j ref content preds sk x rng h' r : acting h -> hive_encrypt horder rorder h j ref content preds sk x rng = (h', r) -> acting h'
| ac_decrypt h j e h' r : acting h -> hive_decrypt rorder h j e = (h', r) -> acting h'
| ac_receive h x h' r : acting h -> receive_event order doc_content do_doc do_ok (doc_receive horder rorder) h x = (h', r) -> acting h'.
End acting.
