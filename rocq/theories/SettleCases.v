(** Concrete clients that both make changes and receive them: individual 1 makes a group, adds individual 3 and later removes
    them; individual 3 in the meantime adds individual 5; both then receive what the other did. *)
From Coq Require Import Arith Lia.
From stdpp Require Import base list gmap relations.
From Verif Require Import ResModel KeysModel TreeModel TreeSpec TreeRun OpsModel CgkaModel.
From Verif Require Import AccessModel GroupModel CgkaSpec GroupSpec GroupTransitive GroupPropsProofs GroupExamples PrekeyModel HiveModel HiveSpec HiveExamples SyncModel.
From Verif Require Import DocModel DocSpec DocExamples TransactModel ArriveModel SettleSpec SettleProps.

Definition g_five := dl 96 3 5 Read (Some g_three).
Definition s_said : list mop := [MD g_root; MD g_three; MD g_five; MR r_three].
Definition S_said (o : mop) : Prop := o ∈ s_said.
Lemma s_proper : proper S_said.
Proof.
  split; [split|].
  - intros a b A B E. unfold S_said, s_said in A, B. repeat (apply elem_of_cons in A as [-> |A]; [repeat (apply elem_of_cons in B as [-> |B]; [first [reflexivity|discriminate]|]); inversion B|]). inversion A.
  - intros i a b [A SA] [B SB] E1 E2 E3 E4 E5. unfold S_said, s_said in A, B.
    repeat (apply elem_of_cons in A as [A|A]; [try discriminate A; injection A as ->; repeat (apply elem_of_cons in B as [B|B]; [try discriminate B; injection B as ->; first [reflexivity|discriminate]|]); inversion B|]). inversion A.
  - intros o p A Hp. unfold S_said, s_said in A.
    repeat (apply elem_of_cons in A as [-> |A]; [cbn in Hp; repeat (apply elem_of_cons in Hp as [-> |Hp]; [reflexivity|]); inversion Hp|]). inversion A.
Qed.
Definition rcv (h : client) (x : sevent dop) := receive_event asc mentions do_doc do_ok (doc_receive hord rord) h x.
Definition e_root : sevent dop := EDlg (SDlg 90 7 1 Admin None [] 0 true).
Definition e_three : sevent dop := EDlg (SDlg 93 1 3 Read (Some 90) [] 0 true).
Definition e_five : sevent dop := EDlg (SDlg 96 3 5 Read (Some 93) [] 0 true).
Definition e_gone : sevent dop := ERev (SRev 98 1 93 (Some 93) 0 true).
Definition pks : client -> ident -> ident -> share_key := fun _ => pk.
Notation mx := (mixed asc hord rord pks mentions S_said).

Definition a1 := (gg (start 1) 7 [(1, 90)] 0).1.
Definition a2 := (addm a1 7 3 Read 0 93 (digests 20)).1.
Definition a3 := (revm a2 7 3 false 0 [98; 99; 100] (digests 30)).1.
Definition a4 := (rcv a3 e_five).1.
Definition b1 := (rcv (start 3) e_root).1.
Definition b2 := (rcv b1 e_three).1.
Definition b3 := (addm b2 7 5 Read 0 96 (digests 20)).1.
Definition b4 := (rcv b3 e_gone).1.

(** ** What the calls make and the events stand for, computed *)
Fixpoint dlg_is (a b : dlg) : bool :=
  match a, b with
  | Dlg s i w c p [] n, Dlg s' i' w' c' p' [] n' =>
      (s =? s') && (i =? i') && (w =? w') && (rank c =? rank c') && (n =? n') && match p, p' with Some q, Some q' => dlg_is q q' | None, None => true | _, _ => false end
  | _, _ => false
  end.
Lemma rank_inj c c' : rank c = rank c' -> c = c'.
Proof. destruct c, c'; cbn; intros; congruence. Qed.
Lemma dlg_is_ok : forall a b, dlg_is a b = true -> a = b.
Proof.
  fix IH 1. intros [s i w c p af n] [s' i' w' c' p' af' n'] E. cbn in E. destruct af; [|discriminate]. destruct af'; [|discriminate].
  repeat (apply andb_prop in E as [E ?]). repeat match goal with H : (_ =? _) = true |- _ => apply Nat.eqb_eq in H end. subst. match goal with H : rank _ = rank _ |- _ => apply rank_inj in H end. subst.
  destruct p as [q|], p' as [q'|]; try discriminate; [|reflexivity]. f_equal. f_equal. apply IH. assumption.
Qed.
Definition is_op (a b : mop) : bool :=
  match a, b with
  | MD d, MD d' => dlg_is d d'
  | MR (Rev s i d p n), MR (Rev s' i' d' p' n') => (s =? s') && (i =? i') && (n =? n') && dlg_is d d' && match p, p' with Some q, Some q' => dlg_is q q' | None, None => true | _, _ => false end
  | _, _ => false
  end.
Lemma is_op_ok a b : is_op a b = true -> a = b.
Proof.
  destruct a as [d|[s i d p n]], b as [d'|[s' i' d' p' n']]; cbn; try discriminate; [intros E; f_equal; apply dlg_is_ok, E|]. intros E.
  repeat (apply andb_prop in E as [E ?]). repeat match goal with H : (_ =? _) = true |- _ => apply Nat.eqb_eq in H end. subst. match goal with H : dlg_is d d' = true |- _ => apply dlg_is_ok in H end. subst.
  destruct p as [q|], p' as [q'|]; try discriminate; [|reflexivity]. match goal with H : dlg_is q q' = true |- _ => apply dlg_is_ok in H end. subst. reflexivity.
Qed.
Definition only_adds (h : client) i who can c s (P : mop -> bool) : bool :=
  forallb (fun g => match add_member asc (h_env h) g who can (me h) c s with GOk (_, d) => P (MD d) | _ => true end)
    (match h_groups h !! i with Some g => [g] | None => [] end ++ match h_docs h !! i with Some g => [g] | None => [] end).
Lemma only_adds_ok h i who can c s (P : mop -> bool) o : only_adds h i who can c s P = true -> makes_adding asc h i who can c s o -> P o = true.
Proof.
  intros B (g & g' & d & G & A & ->). unfold only_adds in B. rewrite forallb_forall in B. specialize (B g). rewrite A in B. apply B.
  apply elem_of_list_In, elem_of_app. destruct G as [-> | ->]; [left|right]; left.
Qed.
Definition only_revokes (h : client) i t rt c sigs (P : mop -> bool) : bool :=
  forallb (fun g => match revoke_member asc (h_env h) g t rt (me h) c sigs with GOk (_, rs, ds) => forallb P (map MR rs ++ map MD ds) | _ => true end)
    (match h_groups h !! i with Some g => [g] | None => [] end ++ match h_docs h !! i with Some g => [g] | None => [] end).
Lemma only_revokes_ok h i t rt c sigs (P : mop -> bool) o : only_revokes h i t rt c sigs P = true -> makes_revoking asc h i t rt c sigs o -> P o = true.
Proof.
  intros B (g & g' & rs & ds & G & A & Ho). unfold only_revokes in B. rewrite forallb_forall in B. specialize (B g). rewrite A in B.
  assert (X : forallb P (map MR rs ++ map MD ds) = true).
  { apply B. apply elem_of_list_In, elem_of_app. destruct G as [-> | ->]; [left|right]; left. }
  rewrite forallb_forall in X. apply X, elem_of_list_In, elem_of_app, Ho.
Qed.
Definition only_stands (h : client) (x : sevent dop) (P : mop -> bool) : bool :=
  match x with
  | EDlg y => match resolve_dlg h y with Datatypes.inr d => P (MD d) | _ => true end
  | ERev y => match resolve_rev h y with Datatypes.inr r => P (MR r) | _ => true end
  | _ => true
  end.
Lemma only_stands_ok h x (P : mop -> bool) o : only_stands h x P = true -> stands_for_op h x o -> P o = true.
Proof. destruct x; cbn; intros B Q; try contradiction; destruct Q as (y & R & ->); rewrite R in B; exact B. Qed.
Definition saidb (o : mop) : bool := existsb (is_op o) s_said.
Lemma saidb_ok o : saidb o = true -> S_said o.
Proof. intros E. apply existsb_exists in E as (y & Hy & E). apply is_op_ok in E as ->. apply elem_of_list_In, Hy. Qed.
Definition receivable (h : client) (o : mop) : bool := saidb o && negb (op_subject o =? ks_public (h_keys h)) && bool_decide (ks_indies (h_keys h) !! op_subject o = None).
Lemma receivable_ok h o : receivable h o = true -> S_said o /\ op_subject o <> ks_public (h_keys h) /\ ks_indies (h_keys h) !! op_subject o = None.
Proof.
  intros R. apply andb_prop in R as [R C]. apply andb_prop in R as [A B]. split; [apply saidb_ok, A|]. split; [|exact (bool_decide_eq_true_1 _ C)].
  intros E. rewrite E, Nat.eqb_refl in B. discriminate.
Qed.
Lemma step_add h i who can c s hs : mx h -> only_adds h i who can c s saidb = true -> mx (addm h i who can c s hs).1.
Proof. intros M B. eapply (mx_add asc hord rord pks mentions S_said h i who can c s hs); [exact M| |apply surjective_pairing]. intros o Q. apply saidb_ok. exact (only_adds_ok _ _ _ _ _ _ _ o B Q). Qed.
Lemma step_revoke h i t rt c sigs hs : mx h -> only_revokes h i t rt c sigs saidb = true -> mx (revm h i t rt c sigs hs).1.
Proof. intros M B. eapply (mx_revoke asc hord rord pks mentions S_said h i t rt c sigs hs); [exact M| |apply surjective_pairing]. intros o Q. apply saidb_ok. exact (only_revokes_ok _ _ _ _ _ _ _ o B Q). Qed.
Lemma step_receive h x : mx h -> only_stands h x (receivable h) = true -> mx (rcv h x).1.
Proof. intros M B. eapply (mx_receive asc hord rord pks mentions S_said h x); [exact M| |apply surjective_pairing]. intros o Q. apply receivable_ok. exact (only_stands_ok _ _ _ o B Q). Qed.

Lemma a1_mixed : mx a1.
Proof.
  eapply (mx_group asc hord rord pks mentions S_said (start 1) 7 [(1, 90)] 0); [apply mx_start; reflexivity|apply (bool_decide_unpack _); vm_compute; exact I|vm_compute; discriminate|discriminate|sets| |apply surjective_pairing].
  intros x Hx. apply elem_of_list_singleton in Hx as ->. left.
Qed.
Lemma a4_mixed : mx a4.
Proof.
  apply step_receive; [|vm_compute; reflexivity]. apply step_revoke; [|vm_compute; reflexivity]. apply step_add; [|vm_compute; reflexivity]. exact a1_mixed.
Qed.
Lemma b4_mixed : mx b4.
Proof.
  apply step_receive; [|vm_compute; reflexivity]. apply step_add; [|vm_compute; reflexivity]. apply step_receive; [|vm_compute; reflexivity]. apply step_receive; [|vm_compute; reflexivity].
  apply mx_start; reflexivity.
Qed.
(** Both have the same four operations. *)
Lemma a4_dlgs : map_to_list (h_dlgs a4) = map_to_list (h_dlgs b4) /\ list_to_set (map fst (map_to_list (h_dlgs a4))) = ({[ 90; 93; 96 ]} : gset nat).
Proof. split; [vm_compute; reflexivity|sets]. Qed.
Lemma a4_revs : map_to_list (h_revs a4) = [(98, r_three)] /\ map_to_list (h_revs b4) = [(98, r_three)].
Proof. split; vm_compute; reflexivity. Qed.
Lemma list_maps {A} (m m' : gmap nat A) : map_to_list m = map_to_list m' -> m = m'.
Proof. intros E. apply map_to_list_inj. rewrite E. reflexivity. Qed.
Lemma one_entry {A} (m : gmap nat A) k x : map_to_list m = [(k, x)] -> m = {[ k := x ]}.
Proof. intros E. apply map_to_list_inj. rewrite E, map_to_list_singleton. reflexivity. Qed.
Lemma same_ops o : has_op a4 o <-> has_op b4 o.
Proof.
  destruct o as [d|r]; unfold has_op.
  - rewrite (list_maps _ _ (proj1 a4_dlgs)). reflexivity.
  - rewrite (one_entry _ _ _ (proj1 a4_revs)), (one_entry _ _ _ (proj2 a4_revs)). reflexivity.
Qed.
Definition group_at (h : client) (i : ident) : group := default (Group 0 ∅ ∅ ∅ ∅) (h_groups h !! i).
Lemma group_at_ok (h : client) i : (if h_groups h !! i then true else false) = true -> has_group h i (group_at h i).
Proof. intros E. left. unfold group_at. destruct (h_groups h !! i); [reflexivity|discriminate]. Qed.
Lemma a4_revoked r : has_op a4 (MR r) -> r = r_three.
Proof. cbn. rewrite (one_entry _ _ _ (proj1 a4_revs)). intros E. apply lookup_singleton_Some in E as [_ <-]. reflexivity. Qed.
Lemma a4_in o : has_op a4 o -> S_said o.
Proof. destruct s_proper as [W _]. exact (SettleProofs.se_in _ _ _ (SettleProofs.mixed_settled asc hord rord pks mentions S_said asc_some s_proper a4 a4_mixed) o). Qed.
Example C62_agree_case : gr_members (group_at a4 7) = gr_members (group_at b4 7) /\ gr_active (group_at a4 7) = gr_active (group_at b4 7) /\ dom (gr_members (group_at a4 7)) = {[ 1; 5 ]}.
Proof.
  assert (X : gr_members (group_at a4 7) = gr_members (group_at b4 7) /\ gr_active (group_at a4 7) = gr_active (group_at b4 7)).
  { refine (C62_agree asc asc hord hord rord rord pks pks mentions mentions S_said a4 b4 7 (group_at a4 7) (group_at b4 7) asc_some asc_some s_proper a4_mixed b4_mixed _ _ _ _).
    - apply group_at_ok. vm_compute. reflexivity.
    - apply group_at_ok. vm_compute. reflexivity.
    - intros o _. apply same_ops.
    - intros r r' [A _] [B _] _. rewrite (a4_revoked r A), (a4_revoked r' B). reflexivity. }
  destruct X as [X Y]. split; [exact X|]. split; [exact Y|]. sets.
Qed.
Definition turn (o : mop) : nat := match op_sig o with 90 => 0 | 93 => 1 | 98 => 2 | _ => 3 end.
Lemma a4_orderable : orderable (fun o => has_op a4 o /\ op_subject o = 7).
Proof.
  exists turn. split.
  - intros o p [A _] D. apply a4_in in A. unfold S_said, s_said in A. unfold depends_on in D.
    repeat (apply elem_of_cons in A as [-> |A]; [cbn in D; repeat (apply elem_of_cons in D as [-> |D]; [cbn; lia|]); inversion D|]). inversion A.
  - intros d p r [A _] [B _] E E'. apply a4_revoked in B as ->. apply a4_in in A. unfold S_said, s_said in A.
    repeat (apply elem_of_cons in A as [A|A]; [try discriminate A; injection A as ->; cbn in E; try discriminate E; injection E as <-; cbn in E'; try discriminate E'; cbn; lia|]). inversion A.
Qed.
Example C62_kept_case : exists g, has_group a4 7 g /\ holds g g_root.
Proof.
  refine (C62_kept asc hord rord pks mentions S_said asc_some s_proper a4 g_root a4_mixed _ a4_orderable _).
  - vm_compute. reflexivity.
  - intros t r Ht [B _]. apply a4_revoked in B as ->. cbn in Ht. apply elem_of_list_singleton in Ht as ->. cbn. discriminate.
Qed.
Example C62_revoked_case : ~ holds (group_at a4 7) g_three.
Proof.
  refine (C62_revoked asc hord rord pks mentions S_said asc_some s_proper a4 r_three (group_at a4 7) a4_mixed _ _ a4_orderable _ _).
  - vm_compute. reflexivity.
  - apply group_at_ok. vm_compute. reflexivity.
  - intros r r' [A _] [B _] _. rewrite (a4_revoked r A), (a4_revoked r' B). reflexivity.
  - intros t r Ht [[B _] N]. apply a4_revoked in B as ->. congruence.
Qed.
Example C62_authority_case : holds (group_at a4 7) g_five /\ has_op a4 (MD g_five) /\ has_op a4 (MD g_root).
Proof.
  assert (H : holds (group_at a4 7) g_five).
  { assert (E : gr_members (group_at a4 7) !! 5 = Some [g_five]) by (vm_compute; reflexivity). exists [g_five]. split; [exact E|left]. }
  destruct (C62_authority asc hord rord pks mentions S_said asc_some s_proper a4 7 (group_at a4 7) g_five a4_mixed) as (A & B & _); [apply group_at_ok; vm_compute; reflexivity|exact H|].
  split; [exact H|]. split; [exact A|]. apply B. eapply rtc_l; [reflexivity|]. eapply rtc_l; [reflexivity|]. apply rtc_refl.
Qed.
