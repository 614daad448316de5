(** Causal decryption (C28) and the ciphertext store (C29). *)
From Coq Require Import Arith NArith Lia.
From stdpp Require Import base list gmap.
From Verif Require Import SealModel SealSpec SealProofs SealProps CipherModel CipherSpec CipherProofs CipherPropsProofs.

(** ** C29: the store *)

(** Looking up a reference finds the largest of the ciphertexts stored for it, and nothing
    only if there is none: for histories of insertions and removals by reference, whatever
    they share. *)
Theorem C29_by_reference eorder l r :
  any_set_order eorder -> no_single_removal l ->
  match get_by_content_ref eorder (run_ops l) r with
  | Some c => stored l c /\ e_ref c = r /\ (forall d, stored l d -> e_ref d = r -> length (e_bytes d) <= length (e_bytes c))
  | None => forall c, stored l c -> e_ref c <> r
  end.
Proof. intros He N. apply get_lemma; [exact He|]. apply run_inv. auto. Qed.
Print Assumptions C29_by_reference.

(** Looking up an update operation finds every ciphertext stored for it, each once, and finds
    only stored ciphertexts whose reference was used with that operation. *)
Theorem C29_by_update eorder rorder l op :
  any_set_order eorder -> any_set_order rorder -> no_single_removal l ->
  NoDup (get_by_pcs_update eorder rorder (run_ops l) op) /\
  (forall c, stored l c -> e_op c = op -> c ∈ get_by_pcs_update eorder rorder (run_ops l) op) /\
  (forall c, c ∈ get_by_pcs_update eorder rorder (run_ops l) op ->
     stored l c /\ exists d, Insert d ∈ l /\ e_op d = op /\ e_ref d = e_ref c).
Proof.
  intros He Hr N. assert (I : store_inv l (run_ops l)) by (apply run_inv; auto). split; [|split].
  - eapply by_update_NoDup; eauto.
  - intros c S <-. eapply by_update_elem; eauto. split; [exact S|]. apply (si_ops _ _ I), (si_store _ _ I), S.
  - intros c H. eapply by_update_elem in H as [S H]; eauto. split; [exact S|]. apply (si_was _ _ I) in H. exact H.
Qed.
Print Assumptions C29_by_update.

(** When every reference is used for one ciphertext, the store is exactly a map, for all
    histories of insertions and both kinds of removal. *)
Theorem C29_map eorder rorder l :
  any_set_order eorder -> any_set_order rorder -> one_per_ref l ->
  (forall r c, get_by_content_ref eorder (run_ops l) r = Some c <-> stored l c /\ e_ref c = r) /\
  (forall op c, c ∈ get_by_pcs_update eorder rorder (run_ops l) op <-> stored l c /\ e_op c = op) /\
  (forall op, NoDup (get_by_pcs_update eorder rorder (run_ops l) op)) /\
  (forall d, (ms_remove (run_ops l) d).2 = Some d <-> stored l d).
Proof.
  intros He Hr U. assert (I : store_inv l (run_ops l)) by (apply run_inv; auto). split; [|split; [|split]].
  - intros r c. pose proof (get_lemma eorder He l _ r I) as G. split.
    + intros E. rewrite E in G. tauto.
    + intros [S Er]. destruct (get_by_content_ref eorder (run_ops l) r) as [d|].
      * destruct G as (Sd & Ed & _). f_equal. apply U; [now apply stored_inserted|now apply stored_inserted|congruence].
      * now destruct (G c).
  - intros op c. rewrite (by_update_elem eorder rorder He Hr l) by exact I. split.
    + intros [S H]. split; [exact S|]. apply (si_was _ _ I) in H as (d & Hd & Eo & Er).
      rewrite <- Eo. f_equal. apply U; [now apply stored_inserted|exact Hd|congruence].
    + intros [S <-]. split; [exact S|]. apply (si_ops _ _ I), (si_store _ _ I), S.
  - intros op. eapply by_update_NoDup; eauto.
  - intros d. destruct (remove_inv l _ d I U) as [_ E]. rewrite E. rewrite <- (si_store _ _ I).
    destruct (decide (d ∈ ms_store (run_ops l))); split; (tauto || discriminate).
Qed.
Print Assumptions C29_map.

(** Ciphertexts that share a reference, as produced by encrypting the same content twice. *)
Definition ct (ref op len : nat) : ecrypt :=
  Ecrypt [] (replicate len 0%N) 0 (N.of_nat op) (replicate 32 (N.of_nat ref)) 0.

(** Removing one ciphertext can make another with the same reference and operation
    unfindable by its operation. *)
Theorem C29_remove_hides_refuted :
  exists l c, stored l c /\ c ∉ get_by_pcs_update elements elements (run_ops l) (e_op c).
Proof.
  exists [Insert (ct 1 1 1); Insert (ct 1 1 2); Remove (ct 1 1 1)], (ct 1 1 2). split.
  - exists [Insert (ct 1 1 1)], [Remove (ct 1 1 1)].
    split; [reflexivity|]. split; rewrite elem_of_list_singleton; discriminate.
  - apply (bool_decide_unpack _). vm_compute. exact I.
Qed.
Print Assumptions C29_remove_hides_refuted.

(** Removing two of three loses the third also by reference, and the second removal claims
    that there was nothing to remove. *)
Theorem C29_remove_loses_refuted :
  exists l c d, stored l c /\ get_by_content_ref elements (run_ops l) (e_ref c) = None /\
    exists l0, l = l0 ++ [Remove d] /\ stored l0 d /\ (ms_remove (run_ops l0) d).2 = None.
Proof.
  exists [Insert (ct 1 1 1); Insert (ct 1 1 2); Insert (ct 1 1 3); Remove (ct 1 1 1); Remove (ct 1 1 2)], (ct 1 1 3), (ct 1 1 2).
  split; [|split].
  - exists [Insert (ct 1 1 1); Insert (ct 1 1 2)], [Remove (ct 1 1 1); Remove (ct 1 1 2)].
    split; [reflexivity|]. split; rewrite elem_of_cons, elem_of_list_singleton; intros [?|?]; discriminate.
  - apply (bool_decide_unpack _). vm_compute. exact I.
  - exists [Insert (ct 1 1 1); Insert (ct 1 1 2); Insert (ct 1 1 3); Remove (ct 1 1 1)]. split; [reflexivity|]. split.
    + exists [Insert (ct 1 1 1)], [Insert (ct 1 1 3); Remove (ct 1 1 1)].
      split; [reflexivity|]. split; rewrite elem_of_cons, elem_of_list_singleton; intros [?|?]; discriminate.
    + apply (bool_decide_unpack _). vm_compute. exact I.
Qed.
Print Assumptions C29_remove_loses_refuted.

(** Looking up an operation can return a ciphertext that was made under another one. *)
Theorem C29_wrong_update_refuted :
  exists l op c, no_single_removal l /\ c ∈ get_by_pcs_update elements elements (run_ops l) op /\ e_op c <> op.
Proof.
  exists [Insert (ct 1 1 1); Insert (ct 1 2 2)], 1%N, (ct 1 2 2). split; [|split].
  - intros c. rewrite elem_of_cons, elem_of_list_singleton. intros [?|?]; discriminate.
  - apply (bool_decide_unpack _). vm_compute. exact I.
  - discriminate.
Qed.
Print Assumptions C29_wrong_update_refuted.

Example C29_example :
  let l := [Insert (ct 1 1 1); Insert (ct 2 1 5); Insert (ct 3 2 1); Remove (ct 2 1 5); RemoveAll (e_ref (ct 3 2 1)); Insert (ct 3 2 1)] in
  one_per_ref l /\ stored l (ct 1 1 1) /\ ~ stored l (ct 2 1 5) /\ stored l (ct 3 2 1) /\
  get_by_content_ref elements (run_ops l) (e_ref (ct 3 2 1)) = Some (ct 3 2 1) /\
  get_by_content_ref elements (run_ops l) (e_ref (ct 2 1 5)) = None.
Proof.
  intros l.
  assert (U : one_per_ref l).
  { intros c d Hc Hd. unfold l in Hc, Hd. rewrite !elem_of_cons, elem_of_nil in Hc, Hd.
    repeat match goal with H : _ \/ _ |- _ => destruct H | H : False |- _ => destruct H end;
      try discriminate; simplify_eq; vm_compute; congruence. }
  assert (E1 : get_by_content_ref elements (run_ops l) (e_ref (ct 1 1 1)) = Some (ct 1 1 1)) by (apply (bool_decide_unpack _); vm_compute; exact I).
  assert (E2 : get_by_content_ref elements (run_ops l) (e_ref (ct 2 1 5)) = None) by (apply (bool_decide_unpack _); vm_compute; exact I).
  assert (E3 : get_by_content_ref elements (run_ops l) (e_ref (ct 3 2 1)) = Some (ct 3 2 1)) by (apply (bool_decide_unpack _); vm_compute; exact I).
  destruct (C29_map elements elements l ltac:(intros X; reflexivity) ltac:(intros X; reflexivity) U) as (M & _).
  split; [exact U|]. split; [now apply (M (e_ref (ct 1 1 1)))|]. split; [|split; [now apply (M (e_ref (ct 3 2 1)))|auto]].
  intros S. assert (X : get_by_content_ref elements (run_ops l) (e_ref (ct 2 1 5)) = Some (ct 2 1 5)) by (apply M; auto).
  congruence.
Qed.

(** ** C28: causal decryption *)

(** It ends, for every store that does not fail and holds finitely many references, also
    when the ancestors form a cycle. *)
Theorem C28_terminates dec order get entries :
  never_fails get -> finite_store get -> exists s, answers dec get order entries s.
Proof. exact (terminates_lemma dec order get entries). Qed.
Print Assumptions C28_terminates.

(** In particular for the in-memory store, in any state. *)
Theorem C28_terminates_in_memory dec order eorder s entries : any_set_order eorder ->
  exists fuel r, try_causal_decrypt dec order eorder fuel s entries = Some r.
Proof.
  intros He. destruct (C28_terminates dec order (mget eorder s) entries) as (p & f & E).
  - apply mget_never_fails.
  - apply mget_finite; assumption.
  - exists f. eexists. unfold try_causal_decrypt. now rewrite E.
Qed.
Print Assumptions C28_terminates_in_memory.

(** The answer does not depend on the number of steps allowed. *)
Theorem C28_one_answer dec order get entries s s' :
  answers dec get order entries s -> answers dec get order entries s' -> s = s'.
Proof. intros (f & E) (f' & E'). eapply one_answer_lemma; eauto. Qed.
Print Assumptions C28_one_answer.

(** Every content returned is the content of a reachable ciphertext, opened with a key found
    for it, and that key is reported. *)
Theorem C28_sound dec order get entries s r p :
  any_order order -> never_fails get -> answers dec get order entries s -> (r, p) ∈ cd_complete s ->
  exists c k e, reached dec get entries c k /\ opens dec c k e /\ e_ref c = r /\ p = en_plain e /\ cd_keys s !! r = Some k.
Proof. intros Ho NF A. exact (sound_lemma dec order Ho get NF entries s A r p). Qed.
Print Assumptions C28_sound.

(** Nothing is returned twice. *)
Theorem C28_once dec order get entries s :
  any_order order -> never_fails get -> answers dec get order entries s -> NoDup (map fst (cd_complete s)).
Proof. intros Ho NF A. exact (once_lemma dec order Ho get NF entries s A). Qed.
Print Assumptions C28_once.

(** Every reachable ciphertext that opens is returned. *)
Theorem C28_complete dec order get entries s c k e :
  any_order order -> never_fails get -> unambiguous dec get entries -> answers dec get order entries s ->
  reached dec get entries c k -> opens dec c k e -> (e_ref c, en_plain e) ∈ cd_complete s.
Proof. intros Ho NF U A. exact (complete_lemma dec order Ho get NF entries s A U c k e). Qed.
Print Assumptions C28_complete.

(** [next] names exactly the ancestors that opened envelopes mention and the store lacks. *)
Theorem C28_next dec order get entries s r :
  any_order order -> never_fails get -> unambiguous dec get entries -> answers dec get order entries s ->
  (is_Some (cd_next s !! r) <->
   get r = Absent /\ exists c k e, reached dec get entries c k /\ opens dec c k e /\ is_Some (en_ancestors e !! r)).
Proof. intros Ho NF U A. exact (next_lemma dec order Ho get NF entries s A U r). Qed.
Print Assumptions C28_next.

(** [next] and the returned contents are disjoint if the entry points come from the store. *)
Theorem C28_next_not_done dec order get entries s r p :
  any_order order -> never_fails get -> answers dec get order entries s ->
  (forall r c, get r = Found c -> e_ref c = r) -> (forall c k, (c, k) ∈ entries -> get (e_ref c) <> Absent) ->
  (r, p) ∈ cd_complete s -> cd_next s !! r = None.
Proof.
  intros Ho NF A Hg He C. destruct (sound_lemma dec order Ho get NF entries s A r p C) as (c & k & e & R & _ & <- & _).
  destruct (cd_next s !! e_ref c) as [k'|] eqn:E; [exfalso|reflexivity].
  destruct (next_sound_lemma dec order Ho get NF entries s A _ _ E) as (G & _).
  destruct R as [c k H|c0 k0 e0 r k c R0 O0 E0 Gr]; [exact (He _ _ H G)|].
  rewrite (Hg _ _ Gr) in G. congruence.
Qed.
Print Assumptions C28_next_not_done.

(** Success is reported when every key found opens its ciphertext. *)
Theorem C28_ok_sufficient dec order get entries s :
  any_order order -> never_fails get -> answers dec get order entries s ->
  (forall c k, reached dec get entries c k -> exists e, opens dec c k e) -> causal_ok s = true.
Proof. intros Ho NF A. exact (ok_lemma dec order Ho get NF entries s A). Qed.
Print Assumptions C28_ok_sufficient.
(** Success means that every reachable ciphertext was returned. *)
Theorem C28_ok_means_all dec order get entries s :
  any_order order -> never_fails get -> unambiguous dec get entries -> answers dec get order entries s ->
  causal_ok s = true -> forall c k, reached dec get entries c k -> e_ref c ∈ map fst (cd_complete s).
Proof. intros Ho NF U A. exact (ok_complete_lemma dec order Ho get NF entries s A U). Qed.
Print Assumptions C28_ok_means_all.

(** Afterwards the returned contents are no longer offered by the store, and everything else
    is found as before. *)
Theorem C28_marked dec order eorder fuel l entries s' p r :
  any_set_order eorder -> (one_per_ref l \/ no_single_removal l) ->
  try_causal_decrypt dec order eorder fuel (run_ops l) entries = Some (s', p) ->
  get_by_content_ref eorder s' r =
    if decide (r ∈ map fst (cd_complete p)) then None else get_by_content_ref eorder (run_ops l) r.
Proof.
  intros He H. unfold try_causal_decrypt. destruct (causal_loop _ _ _ _ _ _) as [p'|]; [|discriminate].
  intros [= <- <-]. exact (proj2 (mark_all_get eorder He _ l _ (run_inv l H) r)).
Qed.
Print Assumptions C28_marked.

(** A document's entry point leads to every ancestor that is stored. *)
Theorem C28_document dec order eorder fuel s entry raw env s' p r k c e :
  any_order order -> any_set_order eorder ->
  deserialize raw = Some env -> try_causal_decrypt_content dec order eorder fuel s entry raw = Some (s', p) ->
  en_ancestors env !! r = Some k -> get_by_content_ref eorder s r = Some c -> opens dec c k e ->
  exists x, (e_ref c, x) ∈ cd_complete p.
Proof.
  intros Ho He D. unfold try_causal_decrypt_content, try_causal_decrypt. rewrite D.
  set (entries := foldl _ _ _). destruct (causal_loop _ _ _ _ _ _) as [p'|] eqn:L; [|discriminate].
  intros [= <- <-] Ea G O.
  assert (NF := mget_never_fails eorder s).
  destruct (answers_inv dec order Ho (mget eorder s) NF entries p' (ex_intro _ fuel L)) as (log & I).
  assert (M : (c, k) ∈ entries).
  { apply doc_entries_lemma. right. exists r. split.
    - rewrite (Ho _). now apply elem_of_map_to_list.
    - unfold mget. now rewrite G. }
  destruct (ci_entries _ _ _ _ _ _ I _ _ M) as [X|[[_ X]|X]]; [now apply elem_of_nil in X|now destruct (X e)|].
  apply (ci_seen _ _ _ _ _ _ I) in X as (i & Hi & <-). exists (en_plain i.2).
  rewrite (ci_complete _ _ _ _ _ _ I). apply elem_of_list_fmap. exists i. auto.
Qed.
Print Assumptions C28_document.


(** *** When nobody offers two openings: each reference is used for one ciphertext, and a
    ciphertext opens in one way. *)
Theorem C28_unambiguous dec eorder l entries :
  any_set_order eorder -> one_per_ref l ->
  (forall c k k' e e', stored l c -> opens dec c k e -> opens dec c k' e' -> e = e') ->
  (forall c k, (c, k) ∈ entries -> stored l c) ->
  unambiguous dec (mget eorder (run_ops l)) entries.
Proof.
  intros He U One Ent.
  assert (G : forall c k, reached dec (mget eorder (run_ops l)) entries c k -> stored l c).
  { intros c k [c' k' H|c0 k0 e0 r k' c' R O E Gr]; [eauto|]. unfold mget in Gr.
    destruct (get_by_content_ref eorder (run_ops l) r) as [c2|] eqn:Eg; [|discriminate]. injection Gr as ->.
    pose proof (get_lemma eorder He l _ r (run_inv l (or_introl U))) as G. rewrite Eg in G. tauto. }
  intros c k e c' k' e' R R' Er O O'. assert (c = c') as <-; [|eauto].
  apply U; [apply stored_inserted; eauto|apply stored_inserted; eauto|exact Er].
Qed.
Print Assumptions C28_unambiguous.

(** *** Concrete cases, with a cipher that keeps the key in front of the content *)
Definition tdec (k n c : bytes) : option bytes := if decide (take 32 c = k) then Some (drop 32 c) else None.
Definition ref (i : nat) : cref := replicate 32 (N.of_nat i).
Definition key (i : nat) : symkey := replicate 32 (N.of_nat (100 + i)).
Definition sealed (i : nat) (ancestors : list (cref * symkey)) : ecrypt :=
  Ecrypt [] (key i ++ serialize first8 map_to_list (Envelope [N.of_nat i] (list_to_map ancestors))) 0 0 (ref i) 0.
Lemma tdec_one c k k' e e' : opens tdec c k e -> opens tdec c k' e' -> e = e'.
Proof.
  intros (b & E & D) (b' & E' & D'). unfold tdec in E, E'.
  destruct (decide _); [|discriminate]. destruct (decide _); [|discriminate]. congruence.
Qed.
(** 4 -> 2, 3; 2 -> 1; 3 -> 1, 5 (missing); 1 -> 4 (a cycle). *)
Definition four : ecrypt := sealed 4 [(ref 2, key 2); (ref 3, key 3)].
Definition cyclic : list store_op :=
  [Insert (sealed 1 [(ref 4, key 4)]); Insert (sealed 2 [(ref 1, key 1)]);
   Insert (sealed 3 [(ref 1, key 1); (ref 5, key 5)]); Insert four].
Example C28_example :
  unambiguous tdec (mget elements (run_ops cyclic)) [(four, key 4)] /\
  match try_causal_decrypt tdec map_to_list elements 20 (run_ops cyclic) [(four, key 4)] with
  | Some (s', p) =>
      map snd (cd_complete p) = [[4]; [2]; [1]; [3]]%N /\ cd_next p !! ref 5 = Some (key 5) /\
      size (cd_next p) = 1 /\ causal_ok p = true /\ get_by_content_ref elements s' (ref 1) = None
  | None => False
  end.
Proof.
  split.
  - apply C28_unambiguous.
    + intros X. reflexivity.
    + intros c d Hc Hd. unfold cyclic in Hc, Hd. rewrite !elem_of_cons, elem_of_nil in Hc, Hd.
      repeat match goal with H : _ \/ _ |- _ => destruct H | H : False |- _ => destruct H end;
        simplify_eq; vm_compute; congruence.
    + intros c k k' e e' _. apply tdec_one.
    + intros c k H. apply elem_of_list_singleton in H as [= -> _].
      exists (take 3 cyclic), []. split; [reflexivity|]. split; apply not_elem_of_nil.
  - vm_compute. repeat split.
Qed.

(** A wrong key in one envelope makes the whole call fail although everything was decrypted
    with the right key from another; and whether it does depends on the iteration order of a
    hash map.  Here 2 carries a wrong key for 1, 3 the right one. *)
Definition poisoned : list store_op :=
  [Insert (sealed 1 []); Insert (sealed 2 [(ref 1, key 9)]); Insert (sealed 3 [(ref 1, key 1)]); Insert four].
Theorem C28_error_refuted :
  exists l entries, one_per_ref l /\
    match try_causal_decrypt tdec map_to_list elements 20 (run_ops l) entries,
          try_causal_decrypt tdec (fun m => reverse (map_to_list m)) elements 20 (run_ops l) entries with
    | Some (_, p), Some (_, p') =>
        map fst (cd_complete p) = [ref 4; ref 2; ref 3; ref 1] /\ causal_ok p = false /\ is_Some (cd_cannot p !! ref 1) /\
        map fst (cd_complete p') = [ref 4; ref 3; ref 1; ref 2] /\ causal_ok p' = true
    | _, _ => False
    end.
Proof.
  exists poisoned, [(four, key 4)]. split.
  - intros c d Hc Hd. unfold poisoned in Hc, Hd. rewrite !elem_of_cons, elem_of_nil in Hc, Hd.
    repeat match goal with H : _ \/ _ |- _ => destruct H | H : False |- _ => destruct H end;
      simplify_eq; vm_compute; congruence.
  - vm_compute. repeat split; eauto.
Qed.
Print Assumptions C28_error_refuted.

(** [next] can name content that has just been decrypted, when the entry point was not taken
    from the store. *)
Theorem C28_next_done_refuted :
  exists l entries, one_per_ref l /\
    match try_causal_decrypt tdec map_to_list elements 20 (run_ops l) entries with
    | Some (_, p) => ref 4 ∈ map fst (cd_complete p) /\ is_Some (cd_next p !! ref 4)
    | None => False
    end.
Proof.
  exists (take 3 cyclic), [(four, key 4)]. split.
  - intros c d Hc Hd. unfold cyclic in Hc, Hd. cbn [take] in Hc, Hd. rewrite !elem_of_cons, elem_of_nil in Hc, Hd.
    repeat match goal with H : _ \/ _ |- _ => destruct H | H : False |- _ => destruct H end;
      simplify_eq; vm_compute; congruence.
  - vm_compute. split; [apply elem_of_list_here|eauto].
Qed.
Print Assumptions C28_next_done_refuted.

(** A document's missing direct ancestors are not reported at all. *)
Theorem C28_document_missing_refuted :
  exists raw env r,
    deserialize raw = Some env /\ is_Some (en_ancestors env !! r) /\
    get_by_content_ref elements mstore_new r = None /\
    match try_causal_decrypt_content tdec map_to_list elements 20 mstore_new (ref 4) raw with
    | Some (_, p) => causal_ok p = true /\ cd_next p = ∅ /\ cd_complete p = []
    | None => False
    end.
Proof.
  exists (serialize first8 map_to_list (Envelope [] {[ref 1 := key 1]})), (Envelope [] {[ref 1 := key 1]}), (ref 1).
  split; [vm_compute; reflexivity|]. split; [exists (key 1); vm_compute; reflexivity|]. split; [reflexivity|].
  vm_compute. repeat split.
Qed.
Print Assumptions C28_document_missing_refuted.

(** With a store whose lookups can fail, decryption may never end: 1 is an ancestor of
    itself, and looking up its other ancestor fails. *)
Definition one : ecrypt := sealed 1 [(ref 1, key 1); (ref 2, key 2)].
Definition flaky (r : cref) : fetched := if decide (r = ref 1) then Found one else Failed.
Theorem C28_endless_refuted :
  finite_store flaky /\ forall fuel, causal_loop tdec map_to_list flaky fuel causal_new (reverse [(one, key 1)]) = None.
Proof.
  split.
  - exists [ref 1]. intros r c. unfold flaky. destruct (decide _); [|discriminate]. intros [= <-]. apply elem_of_list_here.
  - cbn [reverse rev_append]. intros fuel. assert (N : e_ref one ∉ cd_seen causal_new) by apply not_elem_of_empty.
    change (reverse [(one, key 1)]) with [(one, key 1)].
    revert N. generalize causal_new as s. induction fuel as [|fuel IH]; intros s N; [reflexivity|].
    cbn [causal_loop]. unfold causal_step. rewrite bool_decide_false by exact N.
    destruct (open_envelope tdec one (key 1)) as [x|env] eqn:O.
    { exfalso. apply (f_equal (fun o => match o with inl _ => true | inr _ => false end)) in O. vm_compute in O. discriminate. }
    assert (L : map_to_list (en_ancestors env) = [(ref 1, key 1); (ref 2, key 2)] \/ map_to_list (en_ancestors env) = [(ref 2, key 2); (ref 1, key 1)]).
    { assert (E : map_to_list (en_ancestors env) = match open_envelope tdec one (key 1) with inr e => map_to_list (en_ancestors e) | inl _ => [] end) by (now rewrite O).
      rewrite E. clear. vm_compute. auto. }
    destruct L as [-> | ->]; cbn [foldl]; unfold visit_ancestor; cbn [fst snd];
      unfold flaky;
      rewrite ?decide_True by reflexivity; rewrite ?(decide_False (P := ref 2 = ref 1)) by discriminate;
      cbn [cd_complete cd_keys cd_next cd_cannot cd_seen]; apply IH; cbn [cd_seen];
      rewrite elem_of_difference, elem_of_singleton; tauto.
Qed.
Print Assumptions C28_endless_refuted.
