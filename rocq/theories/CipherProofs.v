(** Proofs about the ciphertext store and causal decryption. *)
From Coq Require Import Arith NArith Lia.
From stdpp Require Import base list gmap.
From Verif Require Import SealModel SealSpec CipherModel CipherSpec.

(** ** Histories *)
Lemma stored_snoc_insert l c d : stored (l ++ [Insert d]) c <-> c = d \/ stored l c.
Proof.
  split.
  - intros (b & a & E & N1 & N2). destruct a as [|x a] using rev_ind.
    + apply app_inj_tail in E as [_ [= ->]]. auto.
    + clear IHa. rewrite app_comm_cons, app_assoc in E. apply app_inj_tail in E as [-> _].
      right. exists b, a. rewrite elem_of_app in N1, N2. repeat split; tauto.
  - intros [-> |(b & a & -> & N1 & N2)].
    + exists l, []. repeat split; apply not_elem_of_nil.
    + exists b, (a ++ [Insert d]). rewrite <- app_assoc. repeat split;
        rewrite elem_of_app, elem_of_list_singleton; intros [?|?]; (tauto || discriminate).
Qed.
Lemma stored_snoc_other l c o : (forall d, o <> Insert d) ->
  stored (l ++ [o]) c <-> stored l c /\ o <> Remove c /\ o <> RemoveAll (e_ref c).
Proof.
  intros NI. split.
  - intros (b & a & E & N1 & N2). destruct a as [|x a] using rev_ind.
    + apply app_inj_tail in E as [_ ->]. now destruct (NI c).
    + clear IHa. rewrite app_comm_cons, app_assoc in E. apply app_inj_tail in E as [-> ->].
      rewrite elem_of_app, elem_of_list_singleton in N1, N2. split; [|split; intros ->; tauto].
      exists b, a. repeat split; tauto.
  - intros ((b & a & -> & N1 & N2) & N3 & N4).
    exists b, (a ++ [o]). rewrite <- app_assoc. repeat split;
        rewrite elem_of_app, elem_of_list_singleton; intros [?|?]; (tauto || congruence).
Qed.
Lemma stored_inserted l c : stored l c -> Insert c ∈ l.
Proof. intros (b & a & -> & _). apply elem_of_app. right. apply elem_of_list_here. Qed.

Record store_inv (l : list store_op) (s : mstore) : Prop := {
  si_store : forall c, c ∈ ms_store s <-> stored l c;
  si_refs : forall r c, c ∈ default ∅ (ms_refs s !! r) <-> c ∈ ms_store s /\ e_ref c = r;
  si_empty : forall r ds, ms_refs s !! r = Some ds -> ds <> ∅;
  si_ops : forall c, c ∈ ms_store s -> e_ref c ∈ default ∅ (ms_ops s !! e_op c);
  si_was : forall op r, r ∈ default ∅ (ms_ops s !! op) -> exists c, Insert c ∈ l /\ e_op c = op /\ e_ref c = r
}.

Lemma default_insert {A} `{Countable A} {B} `{Countable B} (m : gmap A (gset B)) a a' X :
  default ∅ (<[a := X]> m !! a') = if decide (a = a') then X else default ∅ (m !! a').
Proof.
  destruct (decide (a = a')) as [-> |N]; [now rewrite lookup_insert|now rewrite lookup_insert_ne].
Qed.
Lemma default_delete {A} `{Countable A} {B} `{Countable B} (m : gmap A (gset B)) a a' :
  default ∅ (delete a m !! a') = if decide (a = a') then ∅ else default ∅ (m !! a').
Proof.
  destruct (decide (a = a')) as [-> |N]; [now rewrite lookup_delete|now rewrite lookup_delete_ne].
Qed.

Lemma insert_inv l s c : store_inv l s -> store_inv (l ++ [Insert c]) (ms_insert s c).
Proof.
  intros [S R E O W]. unfold ms_insert.
  assert (W' : forall op r, r ∈ default ∅ (ms_ops s !! op) -> exists d, Insert d ∈ l ++ [Insert c] /\ e_op d = op /\ e_ref d = r).
  { intros op r H. destruct (W op r H) as (d & Hd & ?). exists d. rewrite elem_of_app. auto. }
  case_bool_decide as P.
  - split; [|exact R|exact E|exact O|exact W'].
    intros d. rewrite S, stored_snoc_insert. apply S in P. split; [auto|]. intros [-> | ?]; auto.
  - split; cbn.
    + intros d. rewrite stored_snoc_insert, elem_of_union, elem_of_singleton, S. tauto.
    + intros r d. rewrite default_insert. destruct (decide (e_ref c = r)) as [<-|N].
      * rewrite !elem_of_union, !elem_of_singleton, R. split; [intros [-> |[]]; auto|]. intros [[-> |?] ?]; auto.
      * rewrite R, elem_of_union, elem_of_singleton. split; [intros []; auto|]. intros [[-> |?] ?]; [congruence|auto].
    + intros r ds. destruct (decide (e_ref c = r)) as [<-|N].
      * rewrite lookup_insert. intros [= <-] Em. assert (X : c ∈ (∅ : gset ecrypt)) by (rewrite <- Em; apply elem_of_union; left; now apply elem_of_singleton).
        now apply not_elem_of_empty in X.
      * rewrite lookup_insert_ne by exact N. apply E.
    + intros d. rewrite elem_of_union, elem_of_singleton, default_insert.
      destruct (decide (e_op c = e_op d)) as [Eo|No].
      * intros [-> |Hd]; rewrite elem_of_union, elem_of_singleton; [auto|]. right. rewrite Eo. now apply O.
      * intros [-> |Hd]; [congruence|]. now apply O.
    + intros op r. rewrite default_insert. destruct (decide (e_op c = op)) as [<-|N]; [|apply W'].
      rewrite elem_of_union, elem_of_singleton. intros [-> |Hr]; [|now apply W'].
      exists c. rewrite elem_of_app, elem_of_list_singleton. auto.
Qed.

Lemma remove_all_inv l s r : store_inv l s -> store_inv (l ++ [RemoveAll r]) (ms_remove_all s r).1.
Proof.
  intros [S R E O W]. unfold ms_remove_all.
  assert (W' : forall op r', r' ∈ default ∅ (ms_ops s !! op) -> exists d, Insert d ∈ l ++ [RemoveAll r] /\ e_op d = op /\ e_ref d = r').
  { intros op r' H. destruct (W op r' H) as (d & Hd & ?). exists d. rewrite elem_of_app. auto. }
  assert (St : forall c, stored (l ++ [RemoveAll r]) c <-> stored l c /\ e_ref c <> r).
  { intros c. rewrite stored_snoc_other by discriminate. split.
    - intros (Sc & _ & N). split; [exact Sc|]. intros E'. apply N. congruence.
    - intros (Sc & N). split; [exact Sc|]. split; [discriminate|]. intros [= E']. congruence. }
  destruct (ms_refs s !! r) as [ds|] eqn:Er; cbn.
  - assert (Hds : forall c, c ∈ ds <-> c ∈ ms_store s /\ e_ref c = r).
    { intros c. rewrite <- R, Er. reflexivity. }
    split; cbn.
    + intros c. rewrite St, elem_of_difference, Hds, <- S. tauto.
    + intros r' c. rewrite default_delete, elem_of_difference, Hds. destruct (decide (r = r')) as [<-|N].
      * split; [intros X; now apply not_elem_of_empty in X|]. intros [[] ?]; tauto.
      * rewrite R. split; [intros [? <-]|]; intuition congruence.
    + intros r' ds'. destruct (decide (r = r')) as [<-|N]; [rewrite lookup_delete; discriminate|].
      rewrite lookup_delete_ne by exact N. apply E.
    + intros c. rewrite elem_of_difference. intros [? _]. now apply O.
    + exact W'.
  - split; [|exact R|exact E|exact O|exact W'].
    intros c. rewrite St, <- S. split; [|tauto]. intros Hc. split; [exact Hc|]. intros Ec.
    assert (X : c ∈ default ∅ (ms_refs s !! r)) by (apply R; auto). rewrite Er in X. now apply not_elem_of_empty in X.
Qed.

Lemma one_per_ref_prefix l l' : one_per_ref (l ++ l') -> one_per_ref l.
Proof. intros U c d Hc Hd. apply U; apply elem_of_app; auto. Qed.

Lemma remove_inv l s d : store_inv l s -> one_per_ref l ->
  store_inv (l ++ [Remove d]) (ms_remove s d).1 /\ (ms_remove s d).2 = if decide (d ∈ ms_store s) then Some d else None.
Proof.
  intros [S R E O W] U. unfold ms_remove.
  assert (W' : forall op r', r' ∈ default ∅ (ms_ops s !! op) -> exists c, Insert c ∈ l ++ [Remove d] /\ e_op c = op /\ e_ref c = r').
  { intros op r' H. destruct (W op r' H) as (c & Hc & ?). exists c. rewrite elem_of_app. auto. }
  assert (St : forall c, stored (l ++ [Remove d]) c <-> stored l c /\ c <> d).
  { intros c. rewrite stored_snoc_other by discriminate. split.
    - intros (Sc & N & _). split; [exact Sc|]. intros E'. apply N. congruence.
    - intros (Sc & N). split; [exact Sc|]. split; [|discriminate]. intros [= E']. congruence. }
  case_bool_decide as P.
  2:{ cbn. rewrite decide_False by exact P. split; [|reflexivity]. split; [|exact R|exact E|exact O|exact W'].
      intros c. rewrite St, <- S. split; [|tauto]. intros Hc. split; [exact Hc|]. intros ->. tauto. }
  rewrite decide_True by exact P.
  pose proof (O d P) as Od. destruct (ms_ops s !! e_op d) as [rs|] eqn:Eo; [|now apply not_elem_of_empty in Od]. cbn in Od |- *.
  split; [|reflexivity].
  assert (Uq : forall c, c ∈ ms_store s -> e_ref c = e_ref d -> c = d).
  { intros c Hc. apply U; [apply stored_inserted, S, Hc|apply stored_inserted, S, P]. }
  assert (Ro : forall op, default ∅ ((if bool_decide (rs ∖ {[e_ref d]} = ∅) then delete (e_op d) (ms_ops s) else <[e_op d := rs ∖ {[e_ref d]}]> (ms_ops s)) !! op)
      = if decide (e_op d = op) then rs ∖ {[e_ref d]} else default ∅ (ms_ops s !! op)).
  { intros op. case_bool_decide as Em.
    - rewrite default_delete. now rewrite Em.
    - apply default_insert. }
  pose proof (R (e_ref d) d) as Rd. destruct (ms_refs s !! e_ref d) as [ds|] eqn:Er.
  2:{ cbn in Rd. destruct Rd as [_ Rd]. exfalso. apply (not_elem_of_empty (C := gset ecrypt) d), Rd. auto. }
  assert (Hds : forall c, c ∈ ds <-> c ∈ ms_store s /\ e_ref c = e_ref d).
  { intros c. rewrite <- R, Er. reflexivity. }
  assert (Em : ds ∖ {[d]} = ∅).
  { apply leibniz_equiv, elem_of_equiv_empty. intros c. rewrite elem_of_difference, elem_of_singleton, Hds.
    intros [[Hc Ec] N]. apply N. auto. }
  rewrite (bool_decide_true (ds ∖ {[d]} = ∅)) by exact Em.
  split; cbn [ms_ops ms_refs ms_store].
  - intros c. rewrite St, elem_of_difference, elem_of_singleton, <- S. tauto.
  - intros r c. rewrite default_delete, elem_of_difference, elem_of_singleton. destruct (decide (e_ref d = r)) as [<-|N].
    + split; [intros X; now apply not_elem_of_empty in X|]. intros [[Hc N] Ec]. destruct N. auto.
    + rewrite R. split; [intros [Hc <-]|]; intuition congruence.
  - intros r ds'. destruct (decide (e_ref d = r)) as [<-|N]; [rewrite lookup_delete; discriminate|].
    rewrite lookup_delete_ne by exact N. apply E.
  - intros c. rewrite elem_of_difference, elem_of_singleton, Ro. intros [Hc N]. pose proof (O c Hc) as Oc.
    destruct (decide (e_op d = e_op c)) as [Ec|_]; [|exact Oc]. rewrite <- Ec, Eo in Oc. cbn in Oc.
    apply elem_of_difference. split; [exact Oc|]. rewrite elem_of_singleton. intros Er'. apply N. auto.
  - intros op r. rewrite Ro. destruct (decide (e_op d = op)) as [<-|_]; [|apply W'].
    rewrite elem_of_difference. intros [Hr _]. apply W'. rewrite Eo. exact Hr.
Qed.

Lemma run_inv l : (one_per_ref l \/ no_single_removal l) -> store_inv l (run_ops l).
Proof.
  induction l as [|o l IH] using List.rev_ind; intros H.
  - split; cbn.
    + intros c. split; [intros X; now apply not_elem_of_empty in X|]. intros X%stored_inserted. now apply elem_of_nil in X.
    + intros r c. rewrite lookup_empty. cbn. split; [intros X; now apply not_elem_of_empty in X|]. intros [X _]. now apply not_elem_of_empty in X.
    + intros r ds. rewrite lookup_empty. discriminate.
    + intros c X. now apply not_elem_of_empty in X.
    + intros op r. rewrite lookup_empty. intros X. now apply not_elem_of_empty in X.
  - assert (I : store_inv l (run_ops l)).
    { apply IH. destruct H as [H|H]; [left; eapply one_per_ref_prefix, H|right].
      intros c Hc. apply (H c), elem_of_app. auto. }
    unfold run_ops. rewrite foldl_app. cbn. fold (run_ops l). destruct o as [c|c|r]; cbn.
    + now apply insert_inv.
    + destruct H as [H|H].
      * eapply remove_inv; [exact I|eapply one_per_ref_prefix, H].
      * exfalso. apply (H c), elem_of_app. right. apply elem_of_list_here.
    + now apply remove_all_inv.
Qed.

(** ** Lookups *)
Lemma largest_spec l : forall best c, largest best l = Some c ->
  (c ∈ l \/ best = Some c) /\
  (forall d, d ∈ l \/ best = Some d -> length (e_bytes d) <= length (e_bytes c)).
Proof.
  induction l as [|x l IH]; intros best c H; cbn [largest] in H.
  - split; [auto|]. intros d [Hd|Hd]; [now apply elem_of_nil in Hd|]. rewrite H in Hd. injection Hd as ->. lia.
  - destruct best as [b|].
    + destruct (Nat.ltb_spec (length (e_bytes x)) (length (e_bytes b))) as [L|L].
      * apply IH in H as [H1 H2]. split; [rewrite elem_of_cons; tauto|].
        intros d [Hd|Hd]; [|auto]. apply elem_of_cons in Hd as [-> |Hd]; [|auto].
        etransitivity; [|apply (H2 b); auto]. lia.
      * apply IH in H as [H1 H2]. split; [rewrite elem_of_cons; destruct H1 as [?|[= ->]]; auto|].
        intros d [Hd|[= ->]]; [|etransitivity; [exact L|apply H2; auto]].
        apply elem_of_cons in Hd as [-> |Hd]; auto.
    + apply IH in H as [H1 H2]. split; [rewrite elem_of_cons; destruct H1 as [?|[= ->]]; auto|].
      intros d [Hd|Hd]; [|discriminate]. apply elem_of_cons in Hd as [-> |Hd]; auto.
Qed.
Lemma largest_None l : forall best, largest best l = None <-> best = None /\ l = [].
Proof.
  induction l as [|x l IH]; intros best; cbn [largest]; [intuition|].
  destruct best as [b|]; [destruct (_ <? _)|]; rewrite IH; intuition discriminate.
Qed.

Section lookups.
Context (eorder : gset ecrypt -> list ecrypt) (rorder : gset cref -> list cref).
Context (He : any_set_order eorder) (Hr : any_set_order rorder).
Lemma elem_eorder X c : c ∈ eorder X <-> c ∈ X.
Proof. rewrite (He X). apply elem_of_elements. Qed.
Lemma elem_rorder X r : r ∈ rorder X <-> r ∈ X.
Proof. rewrite (Hr X). apply elem_of_elements. Qed.

Lemma get_in_store s r c : get_by_content_ref eorder s r = Some c -> c ∈ ms_store s.
Proof.
  unfold get_by_content_ref. destruct (ms_refs s !! r) as [ds|]; [|discriminate].
  destruct (forallb _ _) eqn:F; [|discriminate]. intros L. apply largest_spec in L as [[L|?] _]; [|discriminate].
  rewrite forallb_forall in F. specialize (F c). rewrite elem_of_list_In in L. apply bool_decide_eq_true in F; auto.
Qed.
Lemma get_lemma l s r : store_inv l s ->
  match get_by_content_ref eorder s r with
  | Some c => stored l c /\ e_ref c = r /\ (forall d, stored l d -> e_ref d = r -> length (e_bytes d) <= length (e_bytes c))
  | None => forall c, stored l c -> e_ref c <> r
  end.
Proof.
  intros [S R E O W]. unfold get_by_content_ref. specialize (R r). specialize (E r).
  destruct (ms_refs s !! r) as [ds|]; cbn in R.
  - destruct (forallb _ _) eqn:F.
    + destruct (largest None (eorder ds)) as [c|] eqn:L.
      * apply largest_spec in L as [[L|?] M]; [|discriminate]. rewrite elem_eorder, R, S in L. destruct L as [L1 L2].
        split; [exact L1|]. split; [exact L2|]. intros d Sd Ed. apply M. left. apply elem_eorder, R. rewrite S. auto.
      * apply largest_None in L as [_ L]. exfalso. apply (E ds eq_refl).
        apply leibniz_equiv, elem_of_equiv_empty. intros c Hc. rewrite <- elem_eorder, L in Hc. now apply elem_of_nil in Hc.
    + exfalso. assert (F' : forallb (fun d => bool_decide (d ∈ ms_store s)) (eorder ds) = true); [|congruence].
      apply forallb_forall. intros c Hc. apply bool_decide_eq_true. apply elem_of_list_In in Hc.
      rewrite elem_eorder, R in Hc. tauto.
  - intros c Sc Ec. apply S in Sc. assert (X : c ∈ (∅ : gset ecrypt)) by (apply R; auto). now apply not_elem_of_empty in X.
Qed.
Lemma by_update_elem l s op c : store_inv l s ->
  c ∈ get_by_pcs_update eorder rorder s op <-> stored l c /\ e_ref c ∈ default ∅ (ms_ops s !! op).
Proof.
  intros [S R E O W]. unfold get_by_pcs_update. destruct (ms_ops s !! op) as [rs|]; cbn.
  - rewrite <- flat_map_concat_map. rewrite elem_of_list_In, in_flat_map. split.
    + intros (r & Hr' & Hc). apply elem_of_list_In in Hr', Hc. apply elem_rorder in Hr'. specialize (R r c).
      destruct (ms_refs s !! r) as [ds|]; [|now apply elem_of_nil in Hc].
      apply elem_of_list_filter in Hc as [Hc Hd]. rewrite elem_eorder in Hd. apply R in Hd as [_ <-]. rewrite <- S. auto.
    + intros [Sc Hrs]. exists (e_ref c). split; [now apply elem_of_list_In, elem_rorder|]. apply elem_of_list_In.
      apply S in Sc. assert (X : c ∈ default ∅ (ms_refs s !! e_ref c)) by (apply R; auto).
      destruct (ms_refs s !! e_ref c) as [ds|]; [|now apply not_elem_of_empty in X].
      apply elem_of_list_filter. rewrite elem_eorder. auto.
  - split; [intros X; now apply elem_of_nil in X|]. intros [_ X]. now apply not_elem_of_empty in X.
Qed.
Lemma NoDup_concat_map {A B} (f : A -> list B) (l : list A) :
  NoDup l -> (forall a, a ∈ l -> NoDup (f a)) -> (forall a a' b, a ∈ l -> a' ∈ l -> b ∈ f a -> b ∈ f a' -> a = a') ->
  NoDup (concat (map f l)).
Proof.
  induction l as [|a l IH]; cbn; intros ND F D; [constructor|].
  apply NoDup_cons in ND as [N ND]. apply NoDup_app. split; [apply F, elem_of_list_here|]. split.
  - intros b Hb Hc. rewrite elem_of_list_In in Hc. rewrite <- flat_map_concat_map in Hc.
    apply in_flat_map in Hc as (a' & Ha & Hb'). apply elem_of_list_In in Ha. apply elem_of_list_In in Hb'.
    apply N. rewrite (D a a' b); auto; [apply elem_of_list_here|now apply elem_of_list_further].
  - apply IH; [exact ND| |].
    + intros a' Ha. apply F. now apply elem_of_list_further.
    + intros a1 a2 b H1 H2. apply D; now apply elem_of_list_further.
Qed.
Lemma by_update_NoDup l s op : store_inv l s -> NoDup (get_by_pcs_update eorder rorder s op).
Proof.
  intros [S R E O W]. unfold get_by_pcs_update. destruct (ms_ops s !! op) as [rs|]; [|constructor].
  apply NoDup_concat_map.
  - rewrite (Hr rs). apply NoDup_elements.
  - intros r _. destruct (ms_refs s !! r) as [ds|]; [|constructor]. apply NoDup_filter. rewrite (He ds). apply NoDup_elements.
  - intros r1 r2 c _ _ H1 H2. pose proof (R r1 c) as R1. pose proof (R r2 c) as R2.
    destruct (ms_refs s !! r1) as [d1|]; [|now apply elem_of_nil in H1].
    destruct (ms_refs s !! r2) as [d2|]; [|now apply elem_of_nil in H2].
    apply elem_of_list_filter in H1 as [_ H1]. apply elem_of_list_filter in H2 as [_ H2].
    rewrite elem_eorder in H1, H2. apply R1 in H1 as [_ <-]. apply R2 in H2 as [_ <-]. reflexivity.
Qed.
End lookups.

(** ** Causal decryption *)
Section causal.
Context (dec : symkey -> bytes -> bytes -> option bytes).
Context (order : gmap cref symkey -> list (cref * symkey)) (Ho : any_order order).
Context (get : cref -> fetched).

Lemma open_inr c k e : open_envelope dec c k = inr e <-> opens dec c k e.
Proof.
  unfold open_envelope, opens. destruct (dec _ _ _) as [b|].
  - destruct (deserialize b) as [e'|] eqn:D; split.
    + intros [= ->]. eauto.
    + intros (b' & [= <-] & D'). congruence.
    + discriminate.
    + intros (b' & [= <-] & D'). congruence.
  - split; [discriminate|]. intros (b' & ? & _). discriminate.
Qed.
Lemma open_inl c k : (exists x, open_envelope dec c k = inl x) <-> (forall e, ~ opens dec c k e).
Proof.
  split.
  - intros (x & E) e O. apply open_inr in O. congruence.
  - intros H. destruct (open_envelope dec c k) as [x|e] eqn:E; [eauto|]. apply open_inr in E. now destruct (H e).
Qed.
Lemma opens_fun c k e e' : opens dec c k e -> opens dec c k e' -> e = e'.
Proof. rewrite <- !open_inr. congruence. Qed.

Section infallible.
Context (entries : list (ecrypt * symkey)) (NF : never_fails get).
Notation item := (ecrypt * symkey * envelope)%type.

(** What has been dealt with. *)
Definition dealt (s : causal) (stack : list (ecrypt * symkey)) (c : ecrypt) (k : symkey) : Prop :=
  (c, k) ∈ stack \/ (e_ref c ∈ dom (cd_cannot s) /\ forall e, ~ opens dec c k e) \/ e_ref c ∈ cd_seen s.
Record causal_inv (log : list item) (s : causal) (stack : list (ecrypt * symkey)) : Prop := {
  ci_stack : forall c k, (c, k) ∈ stack -> reached dec get entries c k;
  ci_complete : cd_complete s = map (fun i => (e_ref i.1.1, en_plain i.2)) log;
  ci_seen : forall r, r ∈ cd_seen s <-> exists i, i ∈ log /\ e_ref i.1.1 = r;
  ci_once : NoDup (map (fun i : item => e_ref i.1.1) log);
  ci_log : forall c k e, (c, k, e) ∈ log -> reached dec get entries c k /\ opens dec c k e /\ cd_keys s !! e_ref c = Some k;
  ci_entries : forall c k, (c, k) ∈ entries -> dealt s stack c k;
  ci_ancestors : forall c k e r k' c', (c, k, e) ∈ log -> en_ancestors e !! r = Some k' -> get r = Found c' -> dealt s stack c' k';
  ci_absent : forall c k e r k', (c, k, e) ∈ log -> en_ancestors e !! r = Some k' -> get r = Absent -> is_Some (cd_next s !! r);
  ci_next : forall r k', cd_next s !! r = Some k' -> get r = Absent /\ exists c k e, (c, k, e) ∈ log /\ en_ancestors e !! r = Some k';
  ci_cannot : forall r x, cd_cannot s !! r = Some x -> exists c k, reached dec get entries c k /\ e_ref c = r /\ open_envelope dec c k = inl x
}.

Lemma init_inv : causal_inv [] causal_new (reverse entries).
Proof.
  split; cbn.
  - intros c k H. apply reached_entry. now apply elem_of_reverse.
  - reflexivity.
  - intros r. split; [intros X; now apply not_elem_of_empty in X|]. intros (i & X & _). now apply elem_of_nil in X.
  - constructor.
  - intros c k e X. now apply elem_of_nil in X.
  - intros c k H. left. now apply elem_of_reverse.
  - intros c k e r k' c' X. now apply elem_of_nil in X.
  - intros c k e r k' X. now apply elem_of_nil in X.
  - intros r k'. rewrite lookup_empty. discriminate.
  - intros r x. rewrite lookup_empty. discriminate.
Qed.

(** Visiting the ancestors of one envelope. *)
Lemma visit_fold r l : forall s stack,
  exists next stack',
    foldl (visit_ancestor get r) (s, stack) l =
      (Causal (cd_complete s) (cd_keys s) next (cd_cannot s) (cd_seen s), stack') /\
    (forall c k, (c, k) ∈ stack' <-> (c, k) ∈ stack \/ exists a, (a, k) ∈ l /\ get a = Found c) /\
    (forall a, is_Some (next !! a) <-> is_Some (cd_next s !! a) \/ exists k, (a, k) ∈ l /\ get a = Absent) /\
    (forall a k, next !! a = Some k -> cd_next s !! a = Some k \/ ((a, k) ∈ l /\ get a = Absent)) /\
    length stack' <= length stack + length l.
Proof.
  induction l as [|[a k] l IH]; intros s stack.
  - exists (cd_next s), stack. cbn. split; [destruct s; reflexivity|]. repeat split; try tauto.
    + intros [?|(a & X & _)]; [auto|now apply elem_of_nil in X].
    + intros [?|(k & X & _)]; [auto|now apply elem_of_nil in X].
    + lia.
  - cbn [foldl]. destruct (get a) as [| |c] eqn:G.
    + now destruct (NF a).
    + replace (visit_ancestor get r (s, stack) (a, k)) with
        (Causal (cd_complete s) (cd_keys s) (<[a := k]> (cd_next s)) (cd_cannot s) (cd_seen s), stack)
        by (unfold visit_ancestor; cbn; now rewrite G).
      destruct (IH (Causal (cd_complete s) (cd_keys s) (<[a := k]> (cd_next s)) (cd_cannot s) (cd_seen s)) stack)
        as (next & stack' & E & H1 & H2 & H3 & H4).
      exists next, stack'. split; [exact E|]. cbn in H2, H3. split; [|split; [|split]].
      * intros c k'. rewrite H1. setoid_rewrite elem_of_cons. split.
        -- intros [?|(a' & ? & ?)]; [auto|eauto 6].
        -- intros [?|(a' & [[= -> ->]|?] & ?)]; [auto|congruence|eauto 6].
      * intros a'. rewrite H2. setoid_rewrite elem_of_cons. destruct (decide (a = a')) as [<-|N].
        -- rewrite lookup_insert. split; [intros _; right; eauto 6|]. intros _. left. eauto.
        -- rewrite lookup_insert_ne by exact N. split.
           ++ intros [?|(k' & ? & ?)]; [auto|eauto 6].
           ++ intros [?|(k' & [[= -> ->]|?] & ?)]; [auto|congruence|eauto 6].
      * intros a' k' Hn. apply H3 in Hn as [Hn|[Hn Hg]]; [|right; split; [now apply elem_of_list_further|auto]].
        destruct (decide (a = a')) as [<-|N].
        -- rewrite lookup_insert in Hn. injection Hn as <-. right. split; [apply elem_of_list_here|exact G].
        -- rewrite lookup_insert_ne in Hn by exact N. auto.
      * cbn. lia.
    + replace (visit_ancestor get r (s, stack) (a, k)) with (s, (c, k) :: stack)
        by (unfold visit_ancestor; cbn; now rewrite G).
      destruct (IH s ((c, k) :: stack)) as (next & stack' & E & H1 & H2 & H3 & H4).
      exists next, stack'. split; [exact E|]. split; [|split; [|split]].
      * intros c' k'. rewrite H1, elem_of_cons. setoid_rewrite elem_of_cons. split.
        -- intros [[[= -> ->]|?]|(a' & ? & ?)]; eauto 6.
        -- intros [?|(a' & [[= -> ->]|?] & ?)]; [auto| |eauto 6].
           left; left. congruence.
      * intros a'. rewrite H2. setoid_rewrite elem_of_cons. split.
        -- intros [?|(k' & ? & ?)]; [auto|eauto 6].
        -- intros [?|(k' & [[= -> ->]|?] & ?)]; [auto|congruence|eauto 6].
      * intros a' k' Hn. apply H3 in Hn as [Hn|[Hn Hg]]; [auto|right; split; [now apply elem_of_list_further|auto]].
      * cbn in *. lia.
Qed.

Lemma elem_order (m : gmap cref symkey) a k : (a, k) ∈ order m <-> m !! a = Some k.
Proof. rewrite (Ho m). apply elem_of_map_to_list. Qed.

Lemma dealt_mono s s' stack stack' c k :
  dealt s stack c k ->
  (forall c k, (c, k) ∈ stack -> dealt s' stack' c k) ->
  (forall r, r ∈ dom (cd_cannot s) -> r ∈ dom (cd_cannot s')) ->
  (forall r, r ∈ cd_seen s -> r ∈ cd_seen s') ->
  dealt s' stack' c k.
Proof. intros [D|[[D1 D2]|D]] H1 H2 H3; [auto|right; left; auto|right; right; auto]. Qed.

Lemma step_inv log s c k stack :
  causal_inv log s ((c, k) :: stack) ->
  exists log', let st := causal_step dec order get s c k stack in causal_inv log' st.1 st.2.
Proof.
  intros [C1 C2 C3 C4 C5 C6 C7 C8 C9 C10]. unfold causal_step.
  assert (Rk : reached dec get entries c k) by (apply C1, elem_of_list_here).
  assert (C1' : forall c' k', (c', k') ∈ stack -> reached dec get entries c' k').
  { intros c' k' H. apply C1. now apply elem_of_list_further. }
  case_bool_decide as P.
  - exists log. cbn. 
    assert (D : forall c' k', dealt s ((c, k) :: stack) c' k' -> dealt s stack c' k').
    { intros c' k' D. eapply dealt_mono; [exact D| |auto|auto]. intros c2 k2 H.
      apply elem_of_cons in H as [[= -> ->]|H]; [right; right; exact P|left; exact H]. }
    split; auto. intros; eapply D, C7; eauto.
  - destruct (open_envelope dec c k) as [x|env] eqn:Op.
    + exists log. cbn.
      assert (No : forall e, ~ opens dec c k e) by (apply open_inl; eauto).
      set (s' := Causal (cd_complete s) (<[e_ref c := k]> (cd_keys s)) (cd_next s) (<[e_ref c := x]> (cd_cannot s)) (cd_seen s)).
      assert (D : forall c' k', dealt s ((c, k) :: stack) c' k' -> dealt s' stack c' k').
      { intros c' k' D. eapply dealt_mono; [exact D| | |auto].
        - intros c2 k2 H. apply elem_of_cons in H as [[= -> ->]|H]; [|left; exact H].
          right; left. split; [|exact No]. cbn. rewrite dom_insert. apply elem_of_union_l, elem_of_singleton. reflexivity.
        - intros r Hr. cbn. rewrite dom_insert. now apply elem_of_union_r. }
      split; auto.
      * intros c' k' e H. destruct (C5 c' k' e H) as (H1 & H2 & H3). split; [exact H1|]. split; [exact H2|]. cbn.
        rewrite lookup_insert_ne; [exact H3|]. intros E. apply P, C3. exists (c', k', e). auto.
      * intros; eapply D, C7; eauto.
      * intros r y. cbn. destruct (decide (e_ref c = r)) as [<-|N].
        -- rewrite lookup_insert. intros [= <-]. exists c, k. auto.
        -- rewrite lookup_insert_ne by exact N. apply C10.
    + pose proof (proj1 (open_inr _ _ _) Op) as Ok.
      destruct (visit_fold (e_ref c) (order (en_ancestors env))
        (Causal (cd_complete s) (<[e_ref c := k]> (cd_keys s)) (cd_next s) (cd_cannot s) ({[e_ref c]} ∪ cd_seen s)) stack)
        as (next & stack' & E & H1 & H2 & H3 & _).
      rewrite E. clear E. cbn in *. exists (log ++ [(c, k, env)]).
      set (s' := Causal (cd_complete s ++ [(e_ref c, en_plain env)]) (<[e_ref c := k]> (cd_keys s)) next (cd_cannot s) ({[e_ref c]} ∪ cd_seen s)).
      assert (D : forall c' k', dealt s ((c, k) :: stack) c' k' -> dealt s' stack' c' k').
      { intros c' k' D. eapply dealt_mono; [exact D| |auto|].
        - intros c2 k2 H. apply elem_of_cons in H as [[= -> ->]|H].
          + right; right. cbn. apply elem_of_union_l, elem_of_singleton. reflexivity.
          + left. apply H1. auto.
        - intros r Hr. cbn. now apply elem_of_union_r. }
      split; cbn.
      * intros c' k' H. apply H1 in H as [H|(a & Ha & Hg)]; [auto|].
        apply elem_order in Ha. eapply reached_ancestor; eauto.
      * rewrite map_app, C2. reflexivity.
      * intros r. rewrite elem_of_union, elem_of_singleton, C3. split.
        -- intros [-> |(i & Hi & <-)].
           ++ exists (c, k, env). split; [|reflexivity]. apply elem_of_app. right. apply elem_of_list_here.
           ++ exists i. split; [|reflexivity]. apply elem_of_app. auto.
        -- intros (i & Hi & <-). apply elem_of_app in Hi as [Hi|Hi%elem_of_list_singleton]; [eauto|subst; auto].
      * rewrite map_app. apply NoDup_app. split; [exact C4|]. split; [|apply NoDup_singleton].
        intros r Hr Hx. cbn in Hx. apply elem_of_list_singleton in Hx as ->. apply P, C3.
        apply elem_of_list_fmap in Hr as (i & Ei & Hi). eauto.
      * intros c' k' e H. apply elem_of_app in H as [H|H%elem_of_list_singleton].
        -- destruct (C5 c' k' e H) as (G1 & G2 & G3). split; [exact G1|]. split; [exact G2|].
           rewrite lookup_insert_ne; [exact G3|]. intros Er. apply P, C3. exists (c', k', e). auto.
        -- injection H as -> -> ->. rewrite lookup_insert. auto.
      * auto.
      * intros c' k' e r k2 c2 H Ha Hg. apply elem_of_app in H as [H|H%elem_of_list_singleton].
        -- eapply D, C7; eauto.
        -- injection H as -> -> ->. left. apply H1. right. exists r. split; [|exact Hg]. now apply elem_order.
      * intros c' k' e r k2 H Ha Hg. apply H2. apply elem_of_app in H as [H|H%elem_of_list_singleton].
        -- left. eapply C8; eauto.
        -- injection H as -> -> ->. right. exists k2. split; [|exact Hg]. now apply elem_order.
      * intros r k2 Hn. apply H3 in Hn as [Hn|[Hn Hg]].
        -- destruct (C9 _ _ Hn) as (G & c' & k' & e & Hl & Ha). split; [exact G|]. exists c', k', e.
           split; [|exact Ha]. apply elem_of_app. auto.
        -- split; [exact Hg|]. apply elem_order in Hn. exists c, k, env. split; [|exact Hn].
           apply elem_of_app. right. apply elem_of_list_here.
      * exact C10.
Qed.
Lemma loop_inv fuel : forall log s stack s', causal_inv log s stack ->
  causal_loop dec order get fuel s stack = Some s' -> exists log', causal_inv log' s' [].
Proof.
  induction fuel as [|fuel IH]; intros log s [|[c k] stack] s' I; cbn.
  - intros [= <-]. eauto.
  - discriminate.
  - intros [= <-]. eauto.
  - intros H. destruct (step_inv _ _ _ _ _ I) as (log' & I').
    destruct (causal_step dec order get s c k stack) as [s1 stack1]. eauto.
Qed.
End infallible.

(** ** Termination *)
Lemma loop_mono f : forall f' s stack s', f <= f' -> causal_loop dec order get f s stack = Some s' ->
  causal_loop dec order get f' s stack = Some s'.
Proof.
  induction f as [|f IH]; intros f' s [|[c k] stack] s' L H; cbn in H.
  - destruct f'; exact H.
  - discriminate.
  - destruct f'; exact H.
  - destruct f' as [|f']; [lia|]. cbn. destruct (causal_step dec order get s c k stack) as [s1 st1].
    apply IH; [lia|exact H].
Qed.
Context (NF : never_fails get).
Lemma terminates (U : gset cref) :
  (forall r c, get r = Found c -> e_ref c ∈ U) ->
  forall n s stack, size (U ∖ cd_seen s) <= n -> (forall c k, (c, k) ∈ stack -> e_ref c ∈ U) ->
  exists f s', causal_loop dec order get f s stack = Some s'.
Proof.
  intros HU n. induction n as [n IHn] using lt_wf_ind. intros s stack. revert s.
  induction stack as [|[c k] stack IHs]; intros s Hn Hs.
  - exists 0, s. reflexivity.
  - assert (Hs' : forall c' k', (c', k') ∈ stack -> e_ref c' ∈ U).
    { intros c' k' H. eapply Hs. apply elem_of_list_further. exact H. }
    assert (Hc : e_ref c ∈ U) by (eapply Hs; apply elem_of_list_here).
    assert (G : exists f s', (let '(s1, st1) := causal_step dec order get s c k stack in causal_loop dec order get f s1 st1) = Some s').
    { unfold causal_step. case_bool_decide as P; [auto|].
      destruct (open_envelope dec c k) as [x|env].
      - apply IHs; [exact Hn|exact Hs'].
      - destruct (visit_fold NF (e_ref c) (order (en_ancestors env))
          (Causal (cd_complete s) (<[e_ref c := k]> (cd_keys s)) (cd_next s) (cd_cannot s) ({[e_ref c]} ∪ cd_seen s)) stack)
          as (next & stack' & E & H1 & _).
        rewrite E. clear E. cbn.
        assert (Lt : size (U ∖ ({[e_ref c]} ∪ cd_seen s)) < size (U ∖ cd_seen s)).
        { apply subset_size. split.
          - intros r. rewrite !elem_of_difference, elem_of_union. tauto.
          - intros Hsub. specialize (Hsub (e_ref c)). rewrite !elem_of_difference, elem_of_union, elem_of_singleton in Hsub. tauto. }
        eapply IHn; [|cbn; reflexivity|].
        + cbn. lia.
        + intros c' k' H. apply H1 in H as [H|(a & _ & Hg)]; [eauto|]. eapply HU, Hg. }
    destruct G as (f & s' & G). exists (S f), s'. exact G.
Qed.
End causal.
