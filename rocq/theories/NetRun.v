(** Concrete runs of a network, used as witnesses. *)
From Coq Require Import Arith Lia.
From stdpp Require Import base list gmap relations.
From Verif Require Import ResModel KeysModel TreeModel OpsModel OpsSpec CgkaModel CgkaSpec NetSpec.

Inductive action :=
| AJoin (r : nat) (id : member_id) (pk : share_key) (h : digest)
| AOwner (r : nat) (id : member_id) (keys : list secret_key)
| AAdd (r : nat) (id : member_id) (pk : share_key) (h : digest)
| ARemove (r : nat) (id : member_id) (h : digest)
| AUpdate (r : nat) (sk : secret_key) (h : digest) (rng : list secret_key)
| AReceive (r : nat) (h : digest)
| AEncrypt (r : nat) (ref : nat) (content preds : list nat) (sk : secret_key) (h : digest) (rng : list secret_key)
| ADecrypt (r : nat) (i : nat).

(** Both iteration orders are ascending. *)
Definition asc_h (_ : nat) : gset digest -> list digest := elements.
Definition asc_r (_ : nat) : gset (member_id * nat) -> list (member_id * nat) := elements.
Lemma asc_h_order r : some_order (asc_h r).
Proof. intros s. reflexivity. Qed.
Lemma asc_r_order r : some_order (asc_r r).
Proof. intros s. reflexivity. Qed.

Definition key_map (keys : list secret_key) : sk_map := foldr (fun k m => <[pub k := k]> m) ∅ keys.
Lemma key_map_good keys : good_sks (key_map keys).
Proof.
  induction keys as [|k keys IH]; cbn; intros pk sk E; [rewrite lookup_empty in E; discriminate|].
  apply lookup_insert_Some in E as [[<- <-]|[_ E]]; [reflexivity|auto].
Qed.

Definition on (n : network) (r : nat) (f : cgka -> option network) : option network :=
  match n_reps n !! r with Some c => f c | None => None end.
Definition fresh (n : network) (h : digest) : bool := match n_ops n !! h with None => true | Some _ => false end.

Definition act (n : network) (a : action) : option network :=
  match a with
  | AJoin r id pk h =>
      match n_reps n !! r, n_ops n !! h, cgka_from_init id pk (SignedOp h (init_add id pk)) with
      | None, Some (SignedOp h' (CAdd id' pk' 0 [] [])), Ok c =>
          if (h' =? h) && (id' =? id) && (pk' =? pk) then Some (moved n r c) else None
      | _, _, _ => None
      end
  | AOwner r id keys => on n r (fun c => Some (moved n r (with_new_owner c id (key_map keys))))
  | AAdd r id pk h => on n r (fun c => if fresh n h then Some (moved n r (cgka_add (asc_h r) (asc_r r) c id pk h).1) else None)
  | ARemove r id h => on n r (fun c => if fresh n h then Some (moved n r (cgka_remove (asc_h r) (asc_r r) c id h).1) else None)
  | AUpdate r sk h rng => on n r (fun c => if fresh n h then Some (moved n r (cgka_update (asc_h r) (asc_r r) c sk h rng).1) else None)
  | AReceive r h => on n r (fun c => match n_ops n !! h with
      | Some op => Some (moved n r (merge_concurrent_operation (asc_h r) (asc_r r) c op).1) | None => None end)
  | AEncrypt r ref content preds sk h rng => on n r (fun c => if fresh n h then
      match new_app_secret_for (asc_h r) (asc_r r) c ref content preds sk h rng with
      | (c', Ok (s, _)) => Some (sent (moved n r c') [app_encrypt s content])
      | _ => None end else None)
  | ADecrypt r i => on n r (fun c => match n_cts n !! i with
      | Some e => Some (moved n r (decryption_key_for (asc_r r) c e).1) | None => None end)
  end.
Fixpoint acts (n : network) (l : list action) : option network :=
  match l with
  | [] => Some n
  | a :: l => match act n a with Some n => acts n l | None => None end
  end.
(** Replica 0 creates the group. *)
Definition run (id : member_id) (pk : share_key) (h : digest) (l : list action) : option network :=
  match cgka_from_init id pk (SignedOp h (init_add id pk)) with
  | Ok c => acts (Net {[ 0 := c ]} {[ h := SignedOp h (init_add id pk) ]} []) l
  | _ => None
  end.

Lemma fresh_ok n h : fresh n h = true -> n_ops n !! h = None.
Proof. unfold fresh. destruct (n_ops n !! h); [discriminate|reflexivity]. Qed.

Lemma act_step n a n' : act n a = Some n' -> net_step asc_h asc_r n n'.
Proof.
  unfold act, on. destruct a as [r id pk h|r id keys|r id pk h|r id h|r sk h rng|r h|r ref content preds sk h rng|r i].
  - destruct (n_reps n !! r) eqn:Er; [discriminate|]. destruct (n_ops n !! h) as [[h' [id' pk' [|i] [|p ps] [|q qs]| |]]|] eqn:Eo; try discriminate.
    destruct (cgka_from_init _ _ _) as [c|e| |] eqn:Ec; try discriminate. destruct (_ && _) eqn:B; [|discriminate]. intros Q. injection Q as <-.
    apply andb_true_iff in B as [B B3]. apply andb_true_iff in B as [B1 B2]. apply Nat.eqb_eq in B1, B2, B3. subst. eapply ns_join; eauto.
  - destruct (n_reps n !! r) eqn:Er; [|discriminate]. intros Q. injection Q as <-. eapply ns_owner; [exact Er|apply key_map_good].
  - destruct (n_reps n !! r) eqn:Er; [|discriminate]. destruct (fresh n h) eqn:F; [|discriminate]. intros Q. injection Q as <-.
    eapply ns_add; [exact Er|apply fresh_ok, F|apply surjective_pairing].
  - destruct (n_reps n !! r) eqn:Er; [|discriminate]. destruct (fresh n h) eqn:F; [|discriminate]. intros Q. injection Q as <-.
    eapply ns_remove; [exact Er|apply fresh_ok, F|apply surjective_pairing].
  - destruct (n_reps n !! r) eqn:Er; [|discriminate]. destruct (fresh n h) eqn:F; [|discriminate]. intros Q. injection Q as <-.
    eapply ns_update; [exact Er|apply fresh_ok, F|apply surjective_pairing].
  - destruct (n_reps n !! r) eqn:Er; [|discriminate]. destruct (n_ops n !! h) eqn:F; [|discriminate]. intros Q. injection Q as <-.
    eapply ns_receive; [exact Er|exact F|apply surjective_pairing].
  - destruct (n_reps n !! r) eqn:Er; [|discriminate]. destruct (fresh n h) eqn:F; [|discriminate].
    destruct (new_app_secret_for _ _ _ _ _ _ _ _ _) as [c' [[s o]|e| |]] eqn:En; try discriminate. intros Q. injection Q as <-.
    eapply ns_encrypt; [exact Er|apply fresh_ok, F|exact En].
  - destruct (n_reps n !! r) eqn:Er; [|discriminate]. destruct (n_cts n !! i) eqn:F; [|discriminate]. intros Q. injection Q as <-.
    eapply ns_decrypt; [exact Er|eapply elem_of_list_lookup_2; exact F|apply surjective_pairing].
Qed.
Lemma acts_steps l : forall n n', acts n l = Some n' -> rtc (net_step asc_h asc_r) n n'.
Proof.
  induction l as [|a l IH]; intros n n'; cbn; [intros Q; injection Q as <-; constructor|].
  destruct (act n a) as [n1|] eqn:E; [|discriminate]. intros Q. eapply rtc_l; [eapply act_step; exact E|apply IH, Q].
Qed.
Lemma steps_reachable ho ro n n' : net_reachable ho ro n -> rtc (net_step ho ro) n n' -> net_reachable ho ro n'.
Proof. intros R S. induction S; [exact R|]. apply IHS. eapply nr_step; eauto. Qed.
Lemma run_reachable id pk h l n : run id pk h l = Some n -> net_reachable asc_h asc_r n.
Proof.
  unfold run. destruct (cgka_from_init _ _ _) as [c|e| |] eqn:E; try discriminate. intros Q.
  eapply steps_reachable; [eapply nr_start; exact E|eapply acts_steps; exact Q].
Qed.

Definition empty_net : network := Net ∅ ∅ [].
Definition net_of (o : option network) : network := default empty_net o.
Definition rep (n : network) (r : nat) : cgka :=
  default (Cgka 0 ∅ (Tree 0 [] [] 0 ∅) graph_new false ∅ ∅ (0, 0) (SignedOp 0 (init_add 0 0))) (n_reps n !! r).
