(** Concrete transactions. *)
From Coq Require Import Arith Lia.
From stdpp Require Import base list gmap relations.
From Verif Require Import ResModel KeysModel TreeModel TreeSpec TreeRun OpsModel CgkaModel.
From Verif Require Import AccessModel GroupModel CgkaSpec GroupSpec GroupTransitive GroupPropsProofs GroupExamples PrekeyModel HiveModel HiveSpec HiveExamples SyncModel ArchiveModel.
From Verif Require Import DocModel DocSpec DocKeys DocProofs DocEffects DocExamples TransactModel TransactSpec.

Notation txn := (transact asc hord rord pk mentions).
Notation ran := (forked asc hord rord pk mentions).
Definition alone (h : client) : client := h.
Definition finished (o : txn_outcome) : option client := match o with ADone h => Some h | _ => None end.
Definition fork_run (h : client) (cs : list call) : option (client * list (sevent dop)) :=
  match fork_client asc h with ADone f => run_calls asc hord rord pk mentions f cs | _ => None end.
Lemma finished_ok {B} (F : client -> B) o b : F <$> finished o = Some b -> exists h, o = ADone h /\ F h = b.
Proof. destruct o; cbn; try discriminate. intros [= <-]. eauto. Qed.
Lemma fork_run_ok {B} (F : client * list (sevent dop) -> B) h cs b : F <$> fork_run h cs = Some b -> exists f log, ran h cs f log /\ F (f, log) = b.
Proof.
  unfold fork_run, forked. destruct (fork_client asc h) as [f0| | | | |]; try discriminate. destruct (run_calls _ _ _ _ _ f0 cs) as [[f log]|] eqn:E; [|discriminate].
  cbn. intros [= <-]. exists f, log. split; [|reflexivity]. exists f0. split; [reflexivity|exact E].
Qed.
Definition panics (o : txn_outcome) : bool := match o with AMergePanics => true | _ => false end.
Lemma panics_ok o : panics o = true -> o = AMergePanics.
Proof. destruct o; try discriminate. reflexivity. Qed.
Lemma people_iff h i s : people h i = s -> forall x, direct (h_env h) i x <-> x ∈ s.
Proof. intros E x. rewrite people_direct, E. reflexivity. Qed.
Definition may_encrypt (h : client) : bool := okb (enc h 9 2 [43] [] 46 61 (seq 80 10)).2.

(** A group, members, a document and a removal. *)
Definition t_calls : list call :=
  [TGroup 8 [(1, 190); (2, 191)] 0; TAdd 8 4 Read 0 192 (digests 120); TAdd 9 5 Read 0 193 (digests 130);
   TDoc 10 [(1, 194); (8, 195)] 0 240 201 (seq 202 10) 215 (seq 250 10); TRevoke 9 5 false 0 [196; 197] (digests 140)].
(** A grant that the body receives from somebody else, and a revocation without a proof. *)
Definition t_grant : sevent dop := EDlg (SDlg 93 1 3 Read (Some 91) [] 0 true).
Definition t_revoke : sevent dop := ERev (SRev 95 3 91 None 0 true).
(** Client 2 is in team 7, which is an admin of document 9; client 1 removes it from the team. *)
Definition e0 := gen (gg (start 1) 7 [(1, 90)] 0).1 9 [(1, 91); (7, 92)] 0 40 1 (seq 2 10) 15 (seq 50 10).
Definition e1 := addm e0.1 7 2 Admin 0 99 (digests 20).
Definition e2 := take_all (start 2)
  ([EDlg (SDlg 90 7 1 Admin None [] 1 true); EDlg (SDlg 99 1 2 Admin (Some 90) [] 0 true); EDlg (SDlg 91 9 1 Admin None [] 0 true); EDlg (SDlg 92 9 7 Admin None [] 0 true)]
   ++ sent (news (fun x => x) e0.2 ++ news snd e1.2)).
Definition e_out : sevent dop := ERev (SRev 98 1 99 (Some 90) 0 true).
Definition e_calls : list call := [TAdd 9 3 Read 0 190 (digests 120)].
Lemma e2_act : act e2.
Proof. unfold e2. acted. Qed.
(** Public joins a document and leaves again. *)
Definition v1 := gen (start 3) 9 [(1, 91); (2, 92); (3, 93)] 0 40 1 (seq 2 10) 15 (seq 50 10).
Definition v_add := addm v1.1 9 0 Read 0 190 (digests 120).
Definition v_calls : list call := [TAdd 9 0 Read 0 190 (digests 120)].
Definition v_rev (h : client) := revm h 9 0 false 0 [195; 196; 197] (digests 140).
Definition v2 := take_all (start 2) ([EDlg (SDlg 91 9 1 Admin None [] 0 true); EDlg (SDlg 92 9 2 Admin None [] 0 true); EDlg (SDlg 93 9 3 Admin None [] 0 true)]
  ++ sent (news (fun x => x) v1.2) ++ [EDlg (SDlg 190 3 0 Read (Some 93) [] 0 true)] ++ sent (news snd v_add.2)
  ++ match (v_rev v_add.1).2 with DOk (rs, ds, ops) => map (fun r => static_of (MR r)) rs ++ sent ops | DErr _ => [] end).
Definition v2_enc := enc v2 9 1 [42] [] 45 60 (seq 70 10).
Definition v2_ops := sent (news (fun x => option_list x.2) v2_enc.2).
Definition v_after (h : client) : client := take_all (v_rev h).1 v2_ops.
Lemma v1_act : act v1.1.
Proof. unfold v1. acted. Qed.
Lemma v2_act : act v2.
Proof. unfold v2. acted. Qed.
