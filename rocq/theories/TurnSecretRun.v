(** Concrete runs with their ledgers. *)
From Coq Require Import Arith Lia.
From stdpp Require Import base list gmap relations.
From Verif Require Import ResModel KeysModel TreeModel TreeSpec SecrecySpec OpsModel OpsSpec CgkaModel CgkaSpec NetSpec NetProofs NetInv NetRun TurnSpec TurnProofs TurnRun TurnSecretSpec TurnSecretProofs.

Notation ltact := (action + (nat * member_id * list secret_key))%type.
Definition makes_none (n n' : network) : bool := forallb (fun p => bool_decide (is_Some (n_ops n !! p.1))) (map_to_list (n_ops n')).
Definition at_rep {A} (n : network) (r : nat) (f : cgka -> option A) : option A := match n_reps n !! r with Some c => f c | None => None end.
Definition lact (id : member_id) (pk : share_key) (h : digest) (n : network) (led : ledger) (a : ltact) : option (network * ledger) :=
  match a with
  | inr (r, me, keys) => match tjoin n r id pk h me keys with Some n' => if makes_none n n' then Some (n', led) else None | None => None end
  | inl a =>
      match tact n a with
      | None => None
      | Some n' =>
          if makes_none n n' then Some (n', led) else
          match a with
          | AAdd r id pk h => at_rep n r (fun c => match cgka_add (asc_h r) (asc_r r) c id pk h with (_, Ok (Some _)) => Some (n', led ++ [(h, OAdd id pk)]) | _ => None end)
          | ARemove r id h => at_rep n r (fun c => match cgka_remove (asc_h r) (asc_r r) c id h with (_, Ok (Some _)) => Some (n', led ++ [(h, ORemove id)]) | _ => None end)
          | AUpdate r sk h rng => at_rep n r (fun c => if knows_all n c then match cgka_update (asc_h r) (asc_r r) c sk h rng with
              | (_, Ok (_, SignedOp _ (CUpdate id pc _), _)) => match pc_leaf_pk pc with SKey s => Some (n', led ++ [(h, OUpdate id s rng)]) | CKeys _ _ _ => None end
              | _ => None end else None)
          | AEncrypt r ref content preds sk h rng => at_rep n r (fun c => if knows_all n c then match new_app_secret_for (asc_h r) (asc_r r) c ref content preds sk h rng with
              | (_, Ok (_, Some (SignedOp _ (CUpdate id pc _)))) => match pc_leaf_pk pc with SKey s => Some (n', led ++ [(h, OUpdate id s rng)]) | CKeys _ _ _ => None end
              | _ => None end else None)
          | _ => None
          end
      end
  end.
Fixpoint lacts (id : member_id) (pk : share_key) (h : digest) (n : network) (led : ledger) (l : list ltact) : option (network * ledger) :=
  match l with
  | [] => Some (n, led)
  | a :: l => match lact id pk h n led a with Some (n, led) => lacts id pk h n led l | None => None end
  end.
Definition lrun id pk h keys l : option (network * ledger) :=
  match cgka_from_init id pk (SignedOp h (init_add id pk)) with
  | Ok c => lacts id pk h (Net {[ 0 := with_new_owner c id (key_map keys) ]} {[ h := SignedOp h (init_add id pk) ]} []) [(h, OAdd id pk)] l
  | _ => None
  end.

Notation logged' := (logged asc_h asc_r).
Lemma makes_none_ok n n' : turn_step asc_h asc_r n n' -> makes_none n n' = true -> n_ops n' = n_ops n.
Proof.
  intros S M. assert (E : exists m, n_ops n' = n_ops n ∪ m) by (destruct S; cbn; eauto). destruct E as [m E].
  apply map_eq. intros h. destruct (n_ops n !! h) as [o|] eqn:Eo; [rewrite E; apply lookup_union_Some_l, Eo|].
  destruct (n_ops n' !! h) as [o'|] eqn:Eo'; [|reflexivity]. exfalso. unfold makes_none in M. rewrite forallb_forall in M. specialize (M (h, o')).
  rewrite <- elem_of_list_In, elem_of_map_to_list in M. specialize (M Eo'). apply bool_decide_eq_true in M. cbn in M. destruct M as [? M]. congruence.
Qed.
Lemma turn_step_of n a n' : turns' n -> tact n a = Some n' -> turn_step asc_h asc_r n n'.
Proof.
  intros R Q. unfold tact, on in Q. destruct a as [r id pk h|r id keys|r id pk h|r id h|r sk h rng|r h|r ref content preds sk h rng|r i]; try discriminate.
  - destruct (n_reps n !! r) eqn:Er; [|discriminate]. destruct (knows_all n c) eqn:K; [|discriminate]. unfold act, on in Q. rewrite Er in Q. destruct (fresh n h) eqn:F; [|discriminate]. injection Q as <-.
    eapply tu_add; [exact Er|eapply knows_informed; eauto|apply fresh_ok, F|apply surjective_pairing].
  - destruct (n_reps n !! r) eqn:Er; [|discriminate]. destruct (knows_all n c) eqn:K; [|discriminate]. unfold act, on in Q. rewrite Er in Q. destruct (fresh n h) eqn:F; [|discriminate]. injection Q as <-.
    eapply tu_remove; [exact Er|eapply knows_informed; eauto|apply fresh_ok, F|apply surjective_pairing].
  - destruct (n_reps n !! r) eqn:Er; [|discriminate]. destruct (knows_all n c) eqn:K; [|discriminate]. unfold act, on in Q. rewrite Er in Q. destruct (fresh n h) eqn:F; [|discriminate]. injection Q as <-.
    eapply tu_update; [exact Er|eapply knows_informed; eauto|apply fresh_ok, F|apply surjective_pairing].
  - unfold act, on in Q. destruct (n_reps n !! r) eqn:Er; [|discriminate]. destruct (n_ops n !! h) eqn:F; [|discriminate]. injection Q as <-.
    eapply tu_receive; [exact Er|exact F|apply surjective_pairing].
  - destruct (n_reps n !! r) eqn:Er; [|discriminate]. destruct (may_encrypt n c) eqn:K; [|discriminate]. unfold act, on in Q. rewrite Er in Q. destruct (fresh n h) eqn:F; [|discriminate].
    destruct (new_app_secret_for _ _ _ _ _ _ _ _ _) as [c' [[s o]|e| |]] eqn:En; try discriminate. injection Q as <-.
    eapply tu_encrypt; [exact Er| |apply fresh_ok, F|exact En]. unfold may_encrypt in K. apply orb_true_iff in K as [K|K]; [left; eapply knows_informed; eauto|].
    right. destruct (has_pcs_key c) as [[]| | |]; try discriminate. reflexivity.
  - unfold act, on in Q. destruct (n_reps n !! r) eqn:Er; [|discriminate]. destruct (n_cts n !! i) eqn:F; [|discriminate]. injection Q as <-.
    eapply tu_decrypt; [exact Er|eapply elem_of_list_lookup_2; exact F|apply surjective_pairing].
Qed.
Lemma turn_step_join n r id pk h me keys n' : tjoin n r id pk h me keys = Some n' -> turn_step asc_h asc_r n n'.
Proof.
  intros Q. unfold tjoin in Q. destruct (n_reps n !! r) eqn:Er; [discriminate|]. destruct (n_ops n !! h) as [[h' [id' pk' [|i] [|p ps] [|q qs]| |]]|] eqn:Eo; try discriminate.
  destruct (cgka_from_init _ _ _) as [c|e| |] eqn:Ec; try discriminate. destruct (_ && _) eqn:B; [|discriminate]. injection Q as <-.
  apply andb_true_iff in B as [B B3]. apply andb_true_iff in B as [B1 B2]. apply Nat.eqb_eq in B1, B2, B3. subst. eapply tu_join; eauto. apply key_map_good.
Qed.
Lemma lact_logged id pk h n led a n' led' : logged' n led -> lact id pk h n led a = Some (n', led') -> logged' n' led'.
Proof.
  intros Lg. pose proof (logged_turns _ _ _ _ Lg) as R. destruct a as [a|[[r me] keys]]; cbn [lact].
  2:{ destruct (tjoin n r id pk h me keys) as [n1|] eqn:E; [|discriminate]. apply turn_step_join in E. destruct (makes_none n n1) eqn:M; [|discriminate]. intros Q. injection Q as <- <-.
      eapply lg_quiet; [exact Lg|exact E|apply makes_none_ok; assumption]. }
  destruct (tact n a) as [n1|] eqn:E; [|discriminate]. pose proof (turn_step_of _ _ _ R E) as S. destruct (makes_none n n1) eqn:M.
  { intros Q. injection Q as <- <-. eapply lg_quiet; [exact Lg|exact S|apply makes_none_ok; assumption]. }
  clear M. unfold tact, act, on, at_rep in *. destruct a as [r i p hh|r i keys|r i p hh|r i hh|r sk hh rng|r hh|r ref content preds sk hh rng|r i]; try discriminate.
  - destruct (n_reps n !! r) eqn:Er; [|discriminate]. destruct (knows_all n c) eqn:K; [|discriminate]. destruct (fresh n hh) eqn:F; [|discriminate]. injection E as <-.
    destruct (cgka_add _ _ _ _ _ _) as [c' [[o|]| | |]] eqn:Q; try discriminate. intros X. injection X as <- <-.
    eapply lg_add; [exact Lg|exact Er|eapply knows_informed; eauto|apply fresh_ok, F|exact Q].
  - destruct (n_reps n !! r) eqn:Er; [|discriminate]. destruct (knows_all n c) eqn:K; [|discriminate]. destruct (fresh n hh) eqn:F; [|discriminate]. injection E as <-.
    destruct (cgka_remove _ _ _ _ _) as [c' [[o|]| | |]] eqn:Q; try discriminate. intros X. injection X as <- <-.
    eapply lg_remove; [exact Lg|exact Er|eapply knows_informed; eauto|apply fresh_ok, F|exact Q].
  - destruct (n_reps n !! r) eqn:Er; [|discriminate]. destruct (knows_all n c) eqn:K; [|discriminate]. destruct (fresh n hh) eqn:F; [|discriminate]. injection E as <-.
    destruct (cgka_update _ _ _ _ _ _) as [c' [[[k [oh [| |id' pc ps]]] rest]| | |]] eqn:Q; try discriminate. destruct (pc_leaf_pk pc) as [s|] eqn:Ep; [|discriminate]. intros X. injection X as <- <-.
    eapply lg_update; [exact Lg|exact Er|eapply knows_informed; eauto|apply fresh_ok, F|exact Q|reflexivity|exact Ep].
  - destruct (n_reps n !! r) eqn:Er; [|discriminate]. destruct (knows_all n c) eqn:K; [|discriminate]. destruct (may_encrypt n c) eqn:K'; [|discriminate]. destruct (fresh n hh) eqn:F; [|discriminate].
    destruct (new_app_secret_for _ _ _ _ _ _ _ _ _) as [c' [[a [[oh [| |id' pc ps]]|]]| | |]] eqn:Q; try discriminate. injection E as <-.
    destruct (pc_leaf_pk pc) as [s|] eqn:Ep; [|discriminate]. intros X. injection X as <- <-.
    eapply lg_encrypt; [exact Lg|exact Er|eapply knows_informed; eauto|apply fresh_ok, F|exact Q|reflexivity|exact Ep].
Qed.
Lemma lacts_logged id pk h l : forall n led n' led', logged' n led -> lacts id pk h n led l = Some (n', led') -> logged' n' led'.
Proof.
  induction l as [|a l IH]; intros n led n' led' Lg; cbn; [intros Q; injection Q as <- <-; exact Lg|].
  destruct (lact id pk h n led a) as [[n1 led1]|] eqn:E; [|discriminate]. apply IH. eapply lact_logged; eauto.
Qed.
Lemma lrun_logged id pk h keys l n led : lrun id pk h keys l = Some (n, led) -> logged' n led.
Proof.
  unfold lrun. destruct (cgka_from_init _ _ _) as [c|e| |] eqn:E; try discriminate. apply lacts_logged. apply lg_start; [exact E|apply key_map_good].
Qed.
