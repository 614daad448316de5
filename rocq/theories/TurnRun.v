(** Concrete runs of networks in which operations are made in turn. *)
From Coq Require Import Arith Lia.
From stdpp Require Import base list gmap relations.
From Verif Require Import ResModel KeysModel TreeModel OpsModel OpsSpec CgkaModel CgkaSpec NetSpec NetProofs NetInv NetRun TurnSpec TurnProofs.

Definition knows_all (n : network) (c : cgka) : bool := forallb (fun p => bool_decide (is_Some (g_ops (c_graph c) !! p.1))) (map_to_list (n_ops n)).
Definition may_encrypt (n : network) (c : cgka) : bool := knows_all n c || match has_pcs_key c with Ok true => true | _ => false end.

Definition tact (n : network) (a : action) : option network :=
  match a with
  | AJoin _ _ _ _ | AOwner _ _ _ => None
  | AReceive _ _ | ADecrypt _ _ => act n a
  | AAdd r _ _ _ | ARemove r _ _ | AUpdate r _ _ _ => on n r (fun c => if knows_all n c then act n a else None)
  | AEncrypt r _ _ _ _ _ _ => on n r (fun c => if may_encrypt n c then act n a else None)
  end.
Definition tjoin (n : network) (r : nat) (id : member_id) (pk : share_key) (h : digest) (me : member_id) (keys : list secret_key) : option network :=
  match n_reps n !! r, n_ops n !! h, cgka_from_init id pk (SignedOp h (init_add id pk)) with
  | None, Some (SignedOp h' (CAdd id' pk' 0 [] [])), Ok c =>
      if (h' =? h) && (id' =? id) && (pk' =? pk) then Some (moved n r (with_new_owner c me (key_map keys))) else None
  | _, _, _ => None
  end.
Fixpoint tacts (n : network) (l : list (action + (nat * member_id * list secret_key))) (id : member_id) (pk : share_key) (h : digest) : option network :=
  match l with
  | [] => Some n
  | inl a :: l => match tact n a with Some n => tacts n l id pk h | None => None end
  | inr (r, me, keys) :: l => match tjoin n r id pk h me keys with Some n => tacts n l id pk h | None => None end
  end.
Definition trun id pk h keys l : option network :=
  match cgka_from_init id pk (SignedOp h (init_add id pk)) with
  | Ok c => tacts (Net {[ 0 := with_new_owner c id (key_map keys) ]} {[ h := SignedOp h (init_add id pk) ]} []) l id pk h
  | _ => None
  end.

Notation turns' := (turns asc_h asc_r).
Lemma knows_informed n r c : turns' n -> n_reps n !! r = Some c -> knows_all n c = true -> informed n c.
Proof.
  intros R E K. apply turns_net in R; [|exact asc_h_order|exact asc_r_order]. apply net_reachable_good in R; [|exact asc_h_order|exact asc_r_order].
  pose proof (no_sub _ _ _ (ng_ok _ _ _ R) _ _ E) as S. apply map_eq. intros h. unfold knows_all in K. rewrite forallb_forall in K.
  destruct (n_ops n !! h) as [o|] eqn:Eo; [|eapply lookup_weaken_None; eauto].
  specialize (K (h, o)). rewrite <- elem_of_list_In, elem_of_map_to_list in K. specialize (K Eo). apply bool_decide_eq_true in K. cbn in K. destruct K as [o' K].
  rewrite (lookup_weaken _ _ _ _ K S) in Eo. congruence.
Qed.
Lemma tact_turn n a n' : turns' n -> tact n a = Some n' -> turns' n'.
Proof.
  intros R Q. eapply tn_step; [exact R|]. unfold tact, on in Q. destruct a as [r id pk h|r id keys|r id pk h|r id h|r sk h rng|r h|r ref content preds sk h rng|r i]; try discriminate.
  - destruct (n_reps n !! r) eqn:Er; [|discriminate]. destruct (knows_all n c) eqn:K; [|discriminate]. unfold act, on in Q. rewrite Er in Q. destruct (fresh n h) eqn:F; [|discriminate]. injection Q as <-.
    eapply tu_add; [exact Er|eapply knows_informed; eauto|apply fresh_ok, F|apply surjective_pairing].
  - destruct (n_reps n !! r) eqn:Er; [|discriminate]. destruct (knows_all n c) eqn:K; [|discriminate]. unfold act, on in Q. rewrite Er in Q. destruct (fresh n h) eqn:F; [|discriminate]. injection Q as <-.
    eapply tu_remove; [exact Er|eapply knows_informed; eauto|apply fresh_ok, F|apply surjective_pairing].
  - destruct (n_reps n !! r) eqn:Er; [|discriminate]. destruct (knows_all n c) eqn:K; [|discriminate]. unfold act, on in Q. rewrite Er in Q. destruct (fresh n h) eqn:F; [|discriminate]. injection Q as <-.
    eapply tu_update; [exact Er|eapply knows_informed; eauto|apply fresh_ok, F|apply surjective_pairing].
  - unfold act, on in Q. destruct (n_reps n !! r) eqn:Er; [|discriminate]. destruct (n_ops n !! h) eqn:F; [|discriminate]. injection Q as <-.
    eapply tu_receive; [exact Er|exact F|apply surjective_pairing].
  - destruct (n_reps n !! r) eqn:Er; [|discriminate]. destruct (may_encrypt n c) eqn:K; [|discriminate]. unfold act, on in Q. rewrite Er in Q. destruct (fresh n h) eqn:F; [|discriminate].
    destruct (new_app_secret_for _ _ _ _ _ _ _ _ _) as [c' [[s o]|e| |]] eqn:En; try discriminate. injection Q as <-.
    eapply tu_encrypt; [exact Er| |apply fresh_ok, F|exact En]. unfold may_encrypt in K. apply orb_true_iff in K as [K|K]; [left; eapply knows_informed; eauto|].
    right. destruct (has_pcs_key c) as [[]| | |]; try discriminate. reflexivity.
  - unfold act, on in Q. destruct (n_reps n !! r) eqn:Er; [|discriminate]. destruct (n_cts n !! i) eqn:F; [|discriminate]. injection Q as <-.
    eapply tu_decrypt; [exact Er|eapply elem_of_list_lookup_2; exact F|apply surjective_pairing].
Qed.
Lemma tjoin_turn n r id pk h me keys n' : turns' n -> tjoin n r id pk h me keys = Some n' -> turns' n'.
Proof.
  intros R Q. eapply tn_step; [exact R|]. unfold tjoin in Q. destruct (n_reps n !! r) eqn:Er; [discriminate|]. destruct (n_ops n !! h) as [[h' [id' pk' [|i] [|p ps] [|q qs]| |]]|] eqn:Eo; try discriminate.
  destruct (cgka_from_init _ _ _) as [c|e| |] eqn:Ec; try discriminate. destruct (_ && _) eqn:B; [|discriminate]. injection Q as <-.
  apply andb_true_iff in B as [B B3]. apply andb_true_iff in B as [B1 B2]. apply Nat.eqb_eq in B1, B2, B3. subst. eapply tu_join; eauto. apply key_map_good.
Qed.
Lemma tacts_turns l id pk h : forall n n', turns' n -> tacts n l id pk h = Some n' -> turns' n'.
Proof.
  induction l as [|[a|[[r me] keys]] l IH]; intros n n' R; cbn; [intros Q; injection Q as <-; exact R|..].
  - destruct (tact n a) as [n1|] eqn:E; [|discriminate]. apply IH. eapply tact_turn; eauto.
  - destruct (tjoin n r id pk h me keys) as [n1|] eqn:E; [|discriminate]. apply IH. eapply tjoin_turn; eauto.
Qed.
Lemma trun_turns id pk h keys l n : trun id pk h keys l = Some n -> turns' n.
Proof.
  unfold trun. destruct (cgka_from_init _ _ _) as [c|e| |] eqn:E; try discriminate. apply tacts_turns. apply tn_start; [exact E|apply key_map_good].
Qed.

(** Rosters along a list of operations. *)
Fixpoint roster_along (ops : gmap digest signed_op) (h : digest) (g : gmap member_id share_key) (l : list digest) : option (digest * gmap member_id share_key) :=
  match l with
  | [] => Some (h, g)
  | h' :: l => match ops !! h' with
      | Some o => if bool_decide (op_preds (so_op o) = {[ h ]}) then roster_along ops h' (change g (so_op o)) l else None
      | None => None
      end
  end.
Lemma roster_along_ok ops l : forall h g h' g', roster ops h g -> roster_along ops h g l = Some (h', g') -> roster ops h' g'.
Proof.
  induction l as [|x l IH]; intros h g h' g' R; cbn; [intros Q; injection Q as <- <-; exact R|].
  destruct (ops !! x) as [o|] eqn:E; [|discriminate]. destruct (bool_decide_reflect (op_preds (so_op o) = {[h]})) as [P|P]; [|discriminate].
  apply IH. eapply ro_next; eauto.
Qed.
