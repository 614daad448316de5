(** Proofs about exporting prekey operations and about the client. *)
From Coq Require Import Arith NArith Lia.
From stdpp Require Import base list gmap.
From Verif Require Import GroupModel PrekeyModel PrekeySpec PrekeyProofs.

(** ** Exporting *)

(** Every rotation comes after the operation that introduced its key. *)
Definition causal (r : list keyop) : Prop :=
  forall r1 o r2, r = r1 ++ o :: r2 -> forall k, old_key o = Some k -> exists p, p ∈ r1 /\ new_key p = k.

Lemma app_snoc_cases {A} (r r1 r2 : list A) o x :
  r ++ [o] = r1 ++ x :: r2 -> (r2 = [] /\ r = r1 /\ o = x) \/ exists r2', r2 = r2' ++ [o] /\ r = r1 ++ x :: r2'.
Proof.
  destruct r2 as [|y r2] using List.rev_ind; intros E.
  - left. apply app_inj_tail in E as [-> ->]. done.
  - right. exists r2. rewrite app_comm_cons, app_assoc in E. apply app_inj_tail in E as [-> ->]. done.
Qed.

Lemma causal_snoc r o :
  causal r -> (forall k, old_key o = Some k -> exists p, p ∈ r /\ new_key p = k) -> causal (r ++ [o]).
Proof.
  intros C N r1 x r2 E k K. apply app_snoc_cases in E as [(-> & -> & ->)|(r2' & -> & E)]; [by apply N|].
  by apply (C r1 x r2').
Qed.

Section topsort.
Context (l : list keyop).
Context (inj : forall o p, o ∈ l -> p ∈ l -> new_key o = new_key p -> o = p).
Context (nodup : NoDup l).

Record walk (heads acc : list keyop) : Prop := Walk {
  w_nodup : NoDup (acc ++ heads);
  w_rooted : forall o, o ∈ acc ++ heads -> rooted l o;
  w_adds : forall o, o ∈ l -> old_key o = None -> o ∈ acc ++ heads;
  w_rots : forall o p, o ∈ l -> p ∈ acc -> old_key o = Some (new_key p) -> o ∈ acc ++ heads;
  w_parent : forall o k, o ∈ acc ++ heads -> old_key o = Some k -> exists p, p ∈ acc /\ new_key p = k;
  w_causal : causal acc
}.

Lemma rooted_in o : rooted l o -> o ∈ l.
Proof. by destruct 1. Qed.

Lemma rotations_of_spec k o : o ∈ rotations_of l k <-> o ∈ l /\ old_key o = Some k.
Proof. unfold rotations_of. rewrite elem_of_list_filter. tauto. Qed.

Lemma walk_step h heads acc :
  walk (h :: heads) acc -> walk (reverse (rotations_of l (new_key h)) ++ heads) (acc ++ [h]).
Proof.
  intros W. assert (Hh : rooted l h) by (apply (w_rooted _ _ W); apply elem_of_app; right; left).
  assert (NA : h ∉ acc).
  { intros I. pose proof (w_nodup _ _ W) as N. apply NoDup_app in N as (_ & N & _). apply (N h I). left. }
  assert (In : forall o, o ∈ (acc ++ [h]) ++ reverse (rotations_of l (new_key h)) ++ heads <->
                         o ∈ acc ++ h :: heads \/ (o ∈ l /\ old_key o = Some (new_key h))).
  { intros o. rewrite !elem_of_app, elem_of_list_singleton, elem_of_reverse, rotations_of_spec, elem_of_cons. tauto. }
  assert (New : forall o, o ∈ l -> old_key o = Some (new_key h) -> o ∉ acc ++ h :: heads).
  { intros o L O I. destruct (w_parent _ _ W _ _ I O) as (p & P & E).
    assert (Q : p = h).
    { apply inj; [|by apply rooted_in|done]. apply rooted_in, (w_rooted _ _ W). apply elem_of_app. by left. }
    by subst. }
  constructor.
  - rewrite <- app_assoc. cbn.
    assert (Per : acc ++ h :: reverse (rotations_of l (new_key h)) ++ heads ≡ₚ reverse (rotations_of l (new_key h)) ++ (acc ++ h :: heads)) by solve_Permutation.
    rewrite Per. apply NoDup_app. split_and!.
    + rewrite reverse_Permutation. by apply NoDup_filter.
    + intros o O. rewrite elem_of_reverse, rotations_of_spec in O. apply New; tauto.
    + apply (w_nodup _ _ W).
  - intros o O. apply In in O as [O|[O E]]; [by apply (w_rooted _ _ W)|].
    by apply (rooted_rotate l o h).
  - intros o O E. apply In. left. by apply (w_adds _ _ W).
  - intros o p O P E. apply In. apply elem_of_app in P as [P|P].
    + left. by apply (w_rots _ _ W o p).
    + apply elem_of_list_singleton in P. subst p. by right.
  - intros o k O E. apply In in O as [O|[O E']].
    + destruct (w_parent _ _ W _ _ O E) as (p & P & Q). exists p. split; [apply elem_of_app; by left|done].
    + exists h. split; [apply elem_of_app; right; by apply elem_of_list_singleton|]. congruence.
  - apply causal_snoc; [apply (w_causal _ _ W)|]. intros k K.
    apply (w_parent _ _ W h k); [|done]. apply elem_of_app. right. left.
Qed.

Lemma walk_length heads acc : walk heads acc -> length acc + length heads <= length l.
Proof.
  intros W. rewrite <- app_length. apply submseteq_length. apply NoDup_submseteq; [apply (w_nodup _ _ W)|].
  intros o O. by apply rooted_in, (w_rooted _ _ W).
Qed.

Lemma walk_end fuel heads acc :
  walk heads acc -> length l <= length acc + fuel -> exists r, topsort_loop fuel l heads acc = Some r /\ walk [] r.
Proof.
  revert heads acc. induction fuel as [|f IH]; intros heads acc W L.
  - pose proof (walk_length _ _ W). destruct heads; [by exists acc|]. cbn in *. lia.
  - destruct heads as [|h heads]; [by exists acc|]. cbn. apply IH; [by apply walk_step|].
    rewrite app_length. cbn. lia.
Qed.

Lemma walk_start : walk (reverse (filter (fun o => is_add o = true) l)) [].
Proof.
  assert (A : forall o, is_add o = true <-> old_key o = None) by (intros o; unfold is_add, old_key; by destruct (ko_pay o)).
  constructor; cbn.
  - rewrite reverse_Permutation. by apply NoDup_filter.
  - intros o. rewrite elem_of_reverse, elem_of_list_filter, A. intros [? ?]. by apply rooted_add.
  - intros o O E. rewrite elem_of_reverse, elem_of_list_filter, A. done.
  - intros o p _ P. by apply elem_of_nil in P.
  - intros o k. rewrite elem_of_reverse, elem_of_list_filter, A. intros [-> _]. done.
  - intros r1 o r2 E. by destruct r1.
Qed.

Lemma topsort_lemma fuel :
  length l <= fuel ->
  exists r, key_topsort fuel l = Some r /\ NoDup r /\ (forall o, o ∈ r <-> rooted l o) /\ causal r.
Proof.
  intros L. destruct (walk_end fuel _ _ walk_start) as (r & Eq & W); [done|].
  exists r. split; [done|]. pose proof (w_nodup _ _ W) as N. rewrite app_nil_r in N. split; [done|].
  split; [|apply (w_causal _ _ W)]. intros o. split.
  - intros O. apply (w_rooted _ _ W). by rewrite app_nil_r.
  - intros R. induction R as [o O E|o p O R IH E].
    + pose proof (w_adds _ _ W o O E) as I. by rewrite app_nil_r in I.
    + pose proof (w_rots _ _ W o p O IH E) as I. by rewrite app_nil_r in I.
Qed.
End topsort.

Lemma authored_inj i H o p : authored i H -> o ∈ H -> p ∈ H -> new_key o = new_key p -> o = p.
Proof.
  intros A. revert o p. induction A as [|H x A IH G F N]; intros o p O P E; [by apply elem_of_nil in O|].
  rewrite elem_of_app, elem_of_list_singleton in O, P. destruct O as [O| ->], P as [P| ->]; auto.
  - destruct (F o O). by left.
  - destruct (F p P). by left.
Qed.

Lemma export_lemma i H l fuel :
  authored i H -> NoDup l -> (forall o, o ∈ l -> o ∈ H) -> length l <= fuel ->
  exists r, key_topsort fuel l = Some r /\ NoDup r /\ (forall o, o ∈ r <-> rooted l o) /\ causal r.
Proof.
  intros A N S L. apply topsort_lemma; [|done|done]. intros o p O P. by apply (authored_inj i H); auto.
Qed.

(** Everything is rooted when every rotated key was introduced in the same history. *)
Lemma closed_rooted i H :
  authored i H -> (forall H1 o H2, H = H1 ++ o :: H2 -> forall k, old_key o = Some k -> exists p, p ∈ H1 /\ new_key p = k) ->
  forall o, o ∈ H -> rooted H o.
Proof.
  intros A C. assert (M : forall n o, H !! n = Some o -> rooted H o).
  { intros n. induction (lt_wf n) as [n _ IH]. intros o E. pose proof (elem_of_list_lookup_2 _ _ _ E) as I.
    destruct (old_key o) as [k|] eqn:K; [|by apply rooted_add].
    pose proof (take_drop_middle _ _ _ E) as D. destruct (C _ _ _ (eq_sym D) _ K) as (p & P & Q).
    apply elem_of_list_lookup in P as [j J]. pose proof (lookup_lt_Some _ _ _ J) as JL. rewrite take_length in JL.
    rewrite lookup_take in J by lia. apply (rooted_rotate H o p); [done| |congruence]. apply (IH j); [lia|done]. }
  intros o O. apply elem_of_list_lookup in O as [n N]. eauto.
Qed.

(** ** The client *)

(** The individual behind an identifier, wherever it is kept. *)
Definition known (s : kstore) (i : ident) : option individual :=
  if i =? ks_active s then ks_indies s !! i
  else match ks_docs s !! i with
  | Some x => x
  | None => match ks_groups s !! i with Some x => x | None => ks_indies s !! i end
  end.

Lemma set_indie_self s i x : ks_indies s !! i = Some x -> set_indie s i x = s.
Proof. intros E. unfold set_indie. rewrite insert_id by done. by destruct s. Qed.
Lemma set_doc_self s i x : ks_docs s !! i = Some (Some x) -> set_doc s i x = s.
Proof. intros E. unfold set_doc. rewrite insert_id by done. by destruct s. Qed.
Lemma set_group_self s i x : ks_groups s !! i = Some (Some x) -> set_group s i x = s.
Proof. intros E. unfold set_group. rewrite insert_id by done. by destruct s. Qed.

Lemma client_rejects s o x :
  known s (ko_issuer o) = Some x -> in_id x = ko_issuer o -> ko_issuer o <> ks_public s ->
  verifies o = false -> receive_prekey_op s o = (s, Some EVerification).
Proof.
  intros K I P V. unfold receive_prekey_op, known in *.
  assert (R : receive_key x o = (x, Some EVerification)).
  { unfold receive_key. rewrite I, Nat.eqb_refl, V. done. }
  destruct (Nat.eqb_spec (ko_issuer o) (ks_public s)); [done|].
  destruct (Nat.eqb_spec (ko_issuer o) (ks_active s)).
  - rewrite K, R. by rewrite set_indie_self.
  - destruct (ks_docs s !! ko_issuer o) as [[y|]|] eqn:D; [|done|].
    + injection K as ->. rewrite R. by rewrite set_doc_self.
    + destruct (ks_groups s !! ko_issuer o) as [[y|]|] eqn:Gr; [|done|].
      * injection K as ->. rewrite R. by rewrite set_group_self.
      * rewrite K, R. by rewrite set_indie_self.
Qed.

Lemma client_others s o j :
  j <> ko_issuer o -> known (receive_prekey_op s o).1 j = known s j.
Proof.
  intros N. unfold receive_prekey_op.
  assert (SI : forall x, known (set_indie s (ko_issuer o) x) j = known s j).
  { intros x. unfold known, set_indie. cbn. by rewrite !lookup_insert_ne by done. }
  assert (SD : forall x, known (set_doc s (ko_issuer o) x) j = known s j).
  { intros x. unfold known, set_doc. cbn. by rewrite !lookup_insert_ne by done. }
  assert (SG : forall x, known (set_group s (ko_issuer o) x) j = known s j).
  { intros x. unfold known, set_group. cbn. by rewrite !lookup_insert_ne by done. }
  repeat (case_match; simplify_eq; cbn; auto).
Qed.

Lemma contact_others s o j :
  j <> ko_issuer o -> known (receive_contact_card s o).1 j = known s j.
Proof.
  intros N. unfold receive_contact_card.
  assert (SI : forall x, known (set_indie s (ko_issuer o) x) j = known s j).
  { intros x. unfold known, set_indie. cbn. by rewrite !lookup_insert_ne by done. }
  repeat (case_match; simplify_eq; cbn; auto).
Qed.

(** An operation that changes a known individual is genuine. *)
Definition all_genuine (x : individual) : Prop := forall o, o ∈ in_ops x -> genuine (in_id x) o.

Lemma receive_key_keeps x o x' e :
  all_genuine x -> receive_key x o = (x', e) -> all_genuine x' /\ in_id x' = in_id x /\ in_ops x ⊆ in_ops x'.
Proof.
  intros G E. destruct (decide (genuine (in_id x) o)) as [Go|Go].
  - rewrite receive_key_genuine in E by done. injection E as <- <-. unfold all_genuine. cbn.
    split_and!; [|done|intros p P; apply elem_of_union; by right].
    intros p. rewrite elem_of_union, elem_of_singleton. intros [->|?]; auto.
  - destruct (receive_key_rejected _ _ Go) as [e' E']. rewrite E' in E. injection E as <- <-. done.
Qed.

Lemma client_genuine s o i x :
  known s i = Some x -> in_id x = i -> all_genuine x ->
  exists x', known (receive_prekey_op s o).1 i = Some x' /\ in_id x' = i /\ all_genuine x' /\ in_ops x ⊆ in_ops x'.
Proof.
  intros K I G. destruct (decide (i = ko_issuer o)) as [->|N]; [|rewrite client_others by done; by eauto].
  destruct (receive_key x o) as [x' e] eqn:R. destruct (receive_key_keeps _ _ _ _ G R) as (G' & I' & S').
  unfold receive_prekey_op. destruct (Nat.eqb_spec (ko_issuer o) (ks_public s)); [by exists x|].
  exists x'. split; [|split; [congruence|done]]. unfold known in K |- *.
  destruct (Nat.eqb_spec (ko_issuer o) (ks_active s)) as [A|A].
  - rewrite K, R. cbn. rewrite (proj2 (Nat.eqb_eq _ _) A). by rewrite lookup_insert.
  - destruct (ks_docs s !! ko_issuer o) as [[y|]|] eqn:D; [|done|].
    + injection K as ->. rewrite R. cbn. rewrite (proj2 (Nat.eqb_neq _ _) A). by rewrite lookup_insert.
    + destruct (ks_groups s !! ko_issuer o) as [[y|]|] eqn:Gr; [|done|].
      * injection K as ->. rewrite R. cbn. rewrite (proj2 (Nat.eqb_neq _ _) A). rewrite D. by rewrite lookup_insert.
      * rewrite K, R. cbn. rewrite (proj2 (Nat.eqb_neq _ _) A). rewrite D, Gr. by rewrite lookup_insert.
Qed.

Lemma contact_genuine s o i x :
  known s i = Some x -> in_id x = i -> all_genuine x ->
  (forall y, ks_indies s !! i = Some y -> in_id y = i) -> is_Some (ks_indies s !! i) ->
  exists x', known (receive_contact_card s o).1 i = Some x' /\ in_id x' = i /\ all_genuine x' /\ in_ops x ⊆ in_ops x'.
Proof.
  intros K I G Y Ex. destruct (decide (i = ko_issuer o)) as [->|N]; [|rewrite contact_others by done; by eauto].
  unfold receive_contact_card. destruct Ex as [y Ey]. rewrite Ey. destruct (receive_key y o) as [y' e] eqn:R. cbn [fst].
  unfold known in K |- *. cbn. destruct (Nat.eqb_spec (ko_issuer o) (ks_active s)) as [A|A].
  - assert (y = x) as -> by congruence. destruct (receive_key_keeps _ _ _ _ G R) as (G' & I' & S').
    rewrite lookup_insert. exists y'. split_and!; [done|congruence|done|done].
  - destruct (ks_docs s !! ko_issuer o) as [z|] eqn:D; [by exists x|].
    destruct (ks_groups s !! ko_issuer o) as [z|] eqn:Gr; [by exists x|].
    assert (y = x) as -> by congruence. destruct (receive_key_keeps _ _ _ _ G R) as (G' & I' & S').
    rewrite lookup_insert. exists y'. split_and!; [done|congruence|done|done].
Qed.

Lemma client_run_genuine s l i x :
  known s i = Some x -> in_id x = i -> all_genuine x ->
  exists x', known (foldl (fun s o => (receive_prekey_op s o).1) s l) i = Some x' /\ in_id x' = i /\ all_genuine x' /\ in_ops x ⊆ in_ops x'.
Proof.
  revert s x. induction l as [|o l IH]; intros s x K I G; cbn; [by exists x|].
  destruct (client_genuine s o i x K I G) as (x1 & K1 & I1 & G1 & S1).
  destruct (IH _ _ K1 I1 G1) as (x2 & K2 & I2 & G2 & S2). exists x2. split_and!; [done|done|done|]. by etrans.
Qed.

Lemma public_kept s o : ks_public s = ko_issuer o -> receive_prekey_op s o = (s, None).
Proof. intros E. unfold receive_prekey_op. by rewrite E, Nat.eqb_refl. Qed.

Lemma run_genuine i k0 ks acts :
  in_id (ac_ind (foldl act (active_generate i k0 ks) acts)) = i /\ all_genuine (ac_ind (foldl act (active_generate i k0 ks) acts)).
Proof.
  assert (B : in_id (ac_ind (active_generate i k0 ks)) = i /\ all_genuine (ac_ind (active_generate i k0 ks))).
  { split; [done|]. intros o O. cbn [active_generate ac_ind in_ops in_id] in *.
    rewrite elem_of_list_to_set, elem_of_list_fmap in O. destruct O as (k & -> & _). done. }
  revert B. generalize (active_generate i k0 ks). induction acts as [|c l IH]; intros a [I G]; [done|]. cbn. apply IH.
  destruct c as [k|old new|o]; cbn.
  - split; [done|]. intros o. cbn. rewrite elem_of_union, elem_of_singleton. intros [-> | ?]; [done|by apply G].
  - split; [done|]. intros o. cbn. rewrite elem_of_union, elem_of_singleton. intros [-> | ?]; [done|by apply G].
  - destruct (receive_key (ac_ind a) o) as [x e] eqn:R. destruct (receive_key_keeps _ _ _ _ G R) as (G' & I' & _). cbn. split; [congruence|done].
Qed.
