(** Lemmas behind C28 and C29. *)
From Coq Require Import Arith NArith Lia.
From stdpp Require Import base list gmap.
From Verif Require Import SealModel SealSpec CipherModel CipherSpec CipherProofs.

Section answers.
Context (dec : symkey -> bytes -> bytes -> option bytes).
Context (order : gmap cref symkey -> list (cref * symkey)) (Ho : any_order order).
Context (get : cref -> fetched) (NF : never_fails get).
Context (entries : list (ecrypt * symkey)) (s : causal).
Context (A : answers dec get order entries s).

Lemma answers_inv : exists log, causal_inv dec get entries log s [].
Proof.
  destruct A as (f & E). eapply loop_inv; [exact Ho|exact NF| |exact E]. apply init_inv.
Qed.
Lemma sound_lemma r p : (r, p) ∈ cd_complete s ->
  exists c k e, reached dec get entries c k /\ opens dec c k e /\ e_ref c = r /\ p = en_plain e /\ cd_keys s !! r = Some k.
Proof.
  destruct answers_inv as (log & I). rewrite (ci_complete _ _ _ _ _ _ I). intros H.
  apply elem_of_list_fmap in H as ([[c k] e] & [= -> ->] & H).
  destruct (ci_log _ _ _ _ _ _ I _ _ _ H) as (R & O & K). exists c, k, e. auto.
Qed.
Lemma once_lemma : NoDup (map fst (cd_complete s)).
Proof.
  destruct answers_inv as (log & I). rewrite (ci_complete _ _ _ _ _ _ I), map_map. cbn. exact (ci_once _ _ _ _ _ _ I).
Qed.
Lemma cannot_lemma r x : cd_cannot s !! r = Some x ->
  exists c k, reached dec get entries c k /\ e_ref c = r /\ forall e, ~ opens dec c k e.
Proof.
  destruct answers_inv as (log & I). intros H. destruct (ci_cannot _ _ _ _ _ _ I _ _ H) as (c & k & R & E & O).
  exists c, k. split; [exact R|]. split; [exact E|]. apply open_inl. eauto.
Qed.
Lemma ok_lemma : (forall c k, reached dec get entries c k -> exists e, opens dec c k e) -> causal_ok s = true.
Proof.
  intros H. apply bool_decide_eq_true. apply map_eq. intros r. rewrite lookup_empty.
  destruct (cd_cannot s !! r) as [x|] eqn:E; [exfalso|reflexivity].
  destruct (cannot_lemma _ _ E) as (c & k & R & _ & N). destruct (H _ _ R) as (e & O). exact (N _ O).
Qed.
Lemma next_sound_lemma r k' : cd_next s !! r = Some k' ->
  get r = Absent /\ exists c k e, reached dec get entries c k /\ opens dec c k e /\ en_ancestors e !! r = Some k'.
Proof.
  destruct answers_inv as (log & I). intros H. destruct (ci_next _ _ _ _ _ _ I _ _ H) as (G & c & k & e & L & E).
  split; [exact G|]. destruct (ci_log _ _ _ _ _ _ I _ _ _ L) as (R & O & _). eauto 8.
Qed.
Context (U : unambiguous dec get entries).
Lemma in_log log : causal_inv dec get entries log s [] -> forall c k, reached dec get entries c k -> forall e, opens dec c k e ->
  exists c' k', (c', k', e) ∈ log /\ e_ref c' = e_ref c.
Proof.
  intros I c k R. 
  assert (G : forall c k, reached dec get entries c k -> dealt dec s [] c k -> forall e, opens dec c k e ->
    exists c' k', (c', k', e) ∈ log /\ e_ref c' = e_ref c).
  { clear c k R. intros c k R D e O. destruct D as [D|[[_ D]|D]]; [now apply elem_of_nil in D|now destruct (D e)|].
    apply (ci_seen _ _ _ _ _ _ I) in D as ([[c' k'] e'] & Hi & Er). cbn in Er.
    destruct (ci_log _ _ _ _ _ _ I _ _ _ Hi) as (R' & O' & _).
    assert (e' = e) by (eapply U; [exact R'|exact R|exact Er|exact O'|exact O]). subst e'. eauto. }
  induction R as [c k H|c0 k0 e0 r k c R0 IH O0 E Gr].
  - apply G; [now apply reached_entry|]. exact (ci_entries _ _ _ _ _ _ I _ _ H).
  - apply G; [eapply reached_ancestor; eauto|]. destruct (IH _ O0) as (c1 & k1 & L & _).
    eapply ci_ancestors; eauto.
Qed.
Lemma complete_lemma c k e : reached dec get entries c k -> opens dec c k e -> (e_ref c, en_plain e) ∈ cd_complete s.
Proof.
  destruct answers_inv as (log & I). intros R O. destruct (in_log log I _ _ R _ O) as (c' & k' & L & E).
  rewrite (ci_complete _ _ _ _ _ _ I). apply elem_of_list_fmap. exists (c', k', e). cbn. rewrite E. auto.
Qed.
Lemma next_lemma r : is_Some (cd_next s !! r) <->
  get r = Absent /\ exists c k e, reached dec get entries c k /\ opens dec c k e /\ is_Some (en_ancestors e !! r).
Proof.
  split.
  - intros [k' H]. destruct (next_sound_lemma _ _ H) as (G & c & k & e & R & O & E). split; [exact G|]. exists c, k, e. eauto.
  - intros (G & c & k & e & R & O & k' & E). destruct answers_inv as (log & I).
    destruct (in_log log I _ _ R _ O) as (c' & k0 & L & _). eapply ci_absent; eauto.
Qed.
Lemma ok_complete_lemma : causal_ok s = true -> forall c k, reached dec get entries c k -> e_ref c ∈ map fst (cd_complete s).
Proof.
  intros K. apply bool_decide_eq_true in K. destruct answers_inv as (log & I).
  intros c k R. 
  assert (D : dealt dec s [] c k).
  { destruct R as [c k H|c0 k0 e0 r k c R0 O0 E Gr]; [exact (ci_entries _ _ _ _ _ _ I _ _ H)|].
    destruct (in_log log I _ _ R0 _ O0) as (c1 & k1 & L & _). eapply ci_ancestors; eauto. }
  destruct D as [D|[[D _]|D]]; [now apply elem_of_nil in D| |].
  - rewrite K, dom_empty in D. now apply not_elem_of_empty in D.
  - apply (ci_seen _ _ _ _ _ _ I) in D as (i & Hi & Er). rewrite (ci_complete _ _ _ _ _ _ I), map_map. cbn.
    rewrite <- Er. apply elem_of_list_fmap. eauto.
Qed.
End answers.

Lemma one_answer_lemma dec order get f f' s0 stack s s' :
  causal_loop dec order get f s0 stack = Some s -> causal_loop dec order get f' s0 stack = Some s' -> s = s'.
Proof.
  intros E E'. apply (loop_mono dec order get f (f + f')) in E; [|lia].
  apply (loop_mono dec order get f' (f + f')) in E'; [|lia]. congruence.
Qed.
Lemma terminates_lemma dec order get entries :
  never_fails get -> finite_store get ->
  exists s, answers dec get order entries s.
Proof.
  intros NF (L & HL).
  destruct (terminates dec order get NF (list_to_set (L ++ map (fun x => e_ref x.1) entries))) with
    (n := size (list_to_set (L ++ map (fun x : ecrypt * symkey => e_ref x.1) entries) ∖ cd_seen causal_new : gset cref))
    (s := causal_new) (stack := reverse entries) as (f & s & E).
  - intros r c G. apply elem_of_list_to_set, elem_of_app. left. eapply HL, G.
  - reflexivity.
  - intros c k H. apply elem_of_list_to_set, elem_of_app. right. apply elem_of_list_fmap. exists (c, k).
    split; [reflexivity|]. now apply elem_of_reverse.
  - exists s, f. exact E.
Qed.

(** ** The in-memory store *)
Section memory.
Context (eorder : gset ecrypt -> list ecrypt) (He : any_set_order eorder).
Lemma mget_never_fails s : never_fails (mget eorder s).
Proof. intros r. unfold mget. destruct (get_by_content_ref _ _ _); discriminate. Qed.
Lemma mget_finite s : finite_store (mget eorder s).
Proof.
  exists (map e_ref (elements (ms_store s))). intros r c. unfold mget.
  destruct (get_by_content_ref eorder s r) as [c'|] eqn:E; [|discriminate]. intros [= <-].
  apply elem_of_list_fmap. exists c'. split; [reflexivity|]. apply elem_of_elements. eapply get_in_store; eauto.
Qed.
Lemma forallb_ext_in {A} (f g : A -> bool) l : (forall x, x ∈ l -> f x = g x) -> forallb f l = forallb g l.
Proof.
  induction l as [|x l IH]; intros H; [reflexivity|]. cbn. rewrite H by apply elem_of_list_here.
  rewrite IH; [reflexivity|]. intros y Hy. apply H. now apply elem_of_list_further.
Qed.
Lemma remove_all_get l s r r' : store_inv l s ->
  get_by_content_ref eorder (ms_remove_all s r).1 r' = if decide (r = r') then None else get_by_content_ref eorder s r'.
Proof.
  intros [S R E O W]. unfold ms_remove_all. destruct (ms_refs s !! r) as [ds|] eqn:Er; cbn.
  - unfold get_by_content_ref. cbn. destruct (decide (r = r')) as [<-|N]; [now rewrite lookup_delete|].
    rewrite lookup_delete_ne by exact N. pose proof (R r') as R'. destruct (ms_refs s !! r') as [ds'|]; [|reflexivity].
    erewrite forallb_ext_in; [reflexivity|]. intros c Hc. cbn in *. rewrite (elem_eorder eorder He) in Hc.
    apply R' in Hc as [Hc Ec]. apply bool_decide_ext. rewrite elem_of_difference. split; [tauto|]. intros _. split; [exact Hc|].
    intros Hd. pose proof (R r c) as Rc. rewrite Er in Rc. cbn in Rc. apply Rc in Hd as [_ Hd]. congruence.
  - destruct (decide (r = r')) as [<-|N]; [|reflexivity]. unfold get_by_content_ref. now rewrite Er.
Qed.
Lemma mark_all_get refs : forall l s, store_inv l s -> forall r,
  store_inv (l ++ map RemoveAll refs) (mark_all s refs) /\
  get_by_content_ref eorder (mark_all s refs) r = if decide (r ∈ refs) then None else get_by_content_ref eorder s r.
Proof.
  induction refs as [|r0 refs IH]; intros l s I r.
  - cbn. rewrite app_nil_r. split; [exact I|]. rewrite decide_False; [reflexivity|apply not_elem_of_nil].
  - destruct (IH (l ++ [RemoveAll r0]) (ms_remove_all s r0).1 (remove_all_inv _ _ _ I) r) as [I' E]. split.
    + rewrite <- app_assoc in I'. exact I'.
    + change (mark_all s (r0 :: refs)) with (mark_all (ms_remove_all s r0).1 refs). rewrite E.
      rewrite (remove_all_get l) by exact I. destruct (decide (r ∈ refs)) as [H|H].
      * rewrite decide_True; [reflexivity|]. now apply elem_of_list_further.
      * destruct (decide (r0 = r)) as [->|N].
        -- rewrite decide_True; [reflexivity|apply elem_of_list_here].
        -- rewrite decide_False; [reflexivity|]. rewrite elem_of_cons. intros [?|?]; [congruence|tauto].
Qed.
End memory.

Lemma doc_entries_lemma eorder s (l : list (cref * symkey)) : forall acc c k,
  (c, k) ∈ foldl (fun acc a => match mget eorder s a.1 with Found c => acc ++ [(c, a.2)] | _ => acc end) acc l <->
  (c, k) ∈ acc \/ exists r, (r, k) ∈ l /\ mget eorder s r = Found c.
Proof.
  induction l as [|[r k0] l IH]; intros acc c k; cbn [foldl].
  - split; [auto|]. intros [H|(r & H & _)]; [exact H|now apply elem_of_nil in H].
  - rewrite IH. setoid_rewrite elem_of_cons. cbn. destruct (mget eorder s r) as [| |c0] eqn:G.
    + split; [intros [?|(r' & ? & ?)]; eauto 6|]. intros [?|(r' & [[= -> ->]|?] & ?)]; [auto|congruence|eauto 6].
    + split; [intros [?|(r' & ? & ?)]; eauto 6|]. intros [?|(r' & [[= -> ->]|?] & ?)]; [auto|congruence|eauto 6].
    + rewrite elem_of_app, elem_of_list_singleton. split.
      * intros [[?|[= -> ->]]|(r' & ? & ?)]; eauto 6.
      * intros [?|(r' & [[= -> ->]|?] & ?)]; [auto| |eauto 6]. left; right. congruence.
Qed.
