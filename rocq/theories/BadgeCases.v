(** Concrete cases of C70. *)
From Coq Require Import Arith Lia.
From stdpp Require Import base list gmap relations.
From Verif Require Import ResModel KeysModel TreeModel TreeSpec TreeRun OpsModel CgkaModel.
From Verif Require Import AccessModel GroupModel CgkaSpec GroupSpec GroupTransitive GroupPropsProofs GroupExamples PrekeyModel HiveModel HiveSpec HiveExamples SyncModel.
From Verif Require Import DocModel DocSpec DocExamples TeamSpec TeamCases BadgeModel BadgeProps.

(** After its own update a client seals under the key that it reports, without making an operation. *)
Example C70_seals_case : exists h' h2 e, key_digest z_mine.1 9 = (h', Some 162) /\ enc z_mine.1 9 1 [42] [] 45 60 (seq 270 10) = (h2, DOk (e, None)) /\ ec_pcs e = 162.
Proof.
  assert (A : (key_digest z_mine.1 9).2 = Some 162) by (vm_compute; reflexivity).
  assert (B : match (enc z_mine.1 9 1 [42] [] 45 60 (seq 270 10)).2 with DOk (_, None) => true | _ => false end = true) by (vm_compute; reflexivity).
  destruct (key_digest z_mine.1 9) as [h' x] eqn:E. cbn [snd] in A. subst x. destruct (enc z_mine.1 9 1 [42] [] 45 60 (seq 270 10)) as [h2 [[e [o|]]|er]] eqn:F; cbn [snd] in B; try discriminate B.
  exists h', h2, e. split; [reflexivity|]. split; [reflexivity|]. destruct (C70_seals hord rord z_mine.1 9 1 [42] [] 45 60 (seq 270 10) h2 e F) as [h3 E3]. rewrite E in E3. apply pair_equal_spec in E3 as [_ E3]. apply (inj Some) in E3. symmetry. exact E3.
Qed.
(** Client 4 of the team of [TeamCases] has taken everything that client 1 made: both report the same digest, another one than before the
    removal of individual 3. *)
Lemma same_list {A} (m m' : gmap nat A) : map_to_list m = map_to_list m' -> m = m'.
Proof. intros E. apply map_to_list_inj. rewrite E. reflexivity. Qed.
Example C70_agree_case : exists h1 g1 c, treach w_t4 /\ tm_clients w_t4 !! 1 = Some (cl w_t4 1) /\ tm_clients w_t4 !! 4 = Some (cl w_t4 4) /\ known_ops (cl w_t4 1) 9 = known_ops (cl w_t4 4) 9 /\
  cgka_of (cl w_t4 1) 9 = Some c /\ has_single_head (c_graph c) = true /\ key_digest (cl w_t4 1) 9 = (h1, Some 271) /\ key_digest (cl w_t4 4) 9 = (g1, Some 271).
Proof.
  assert (A : (key_digest (cl w_t4 1) 9).2 = Some 271) by (vm_compute; reflexivity). assert (B : (key_digest (cl w_t4 4) 9).2 = Some 271) by (vm_compute; reflexivity).
  assert (S : match cgka_of (cl w_t4 1) 9 with Some c => has_single_head (c_graph c) | None => false end = true) by (vm_compute; reflexivity).
  assert (K : known_ops (cl w_t4 1) 9 = known_ops (cl w_t4 4) 9) by (apply same_list; vm_compute; reflexivity).
  assert (R : treach w_t4) by (eapply more; [|exact w_t4_steps]; eapply tr_step; [exact w_t2_reach|exact w_t3_step]).
  assert (C1 : tm_clients w_t4 !! 1 = Some (cl w_t4 1)) by (apply cl_some; vm_compute; reflexivity). assert (C4 : tm_clients w_t4 !! 4 = Some (cl w_t4 4)) by (apply cl_some; vm_compute; reflexivity).
  destruct (cgka_of (cl w_t4 1) 9) as [c|] eqn:Ec; [|discriminate S]. destruct (key_digest (cl w_t4 1) 9) as [h1 x] eqn:E. destruct (key_digest (cl w_t4 4) 9) as [g1 y] eqn:F. cbn [snd] in A, B. subst x y.
  exists h1, g1, c. split; [exact R|]. split; [exact C1|]. split; [exact C4|]. split; [exact K|]. split; [reflexivity|]. split; [exact S|]. split; reflexivity.
Qed.
