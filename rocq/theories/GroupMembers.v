(** Materialised members. *)
From Coq Require Import Arith Lia.
From stdpp Require Import base list gmap relations sorting.
From Verif Require Import AccessModel GroupModel CgkaSpec GroupSpec GroupProofs GroupReplay.

(** ** The cascade *)
Definition cascade_step (st : gmap sig dlg * gset sig * list sig) (x : sig) : gmap sig dlg * gset sig * list sig :=
  let '(inp, revoked, next) := st in
  match inp !! x with
  | Some _ => (delete x inp, {[ x ]} ∪ revoked, x :: next)
  | None => (inp, {[ x ]} ∪ revoked, next)
  end.
Lemma cascade_fold xs inp rv next : exists inp' next',
  foldl cascade_step (inp, rv, next) xs = (inp', list_to_set xs ∪ rv, next') /\
  (forall x, inp' !! x = if decide (x ∈ xs) then None else inp !! x) /\
  (forall y, y ∈ next' -> y ∈ next \/ y ∈ xs) /\ (forall y, y ∈ next -> y ∈ next') /\
  length next' + size inp' = length next + size inp.
Proof.
  revert inp rv next. induction xs as [|x xs IH]; intros inp rv next; cbn [foldl].
  - exists inp, next. split; [cbn; f_equal; f_equal; set_solver|]. split; [intros x; rewrite decide_False; [reflexivity|apply not_elem_of_nil]|]. auto.
  - cbn [cascade_step]. destruct (inp !! x) as [d|] eqn:E.
    + destruct (IH (delete x inp) ({[x]} ∪ rv) (x :: next)) as (inp' & next' & F & A & B & C & D). exists inp', next'.
      split; [rewrite F; cbn; f_equal; f_equal; set_solver|]. split; [|split; [|split]].
      * intros y. rewrite A. destruct (decide (y ∈ xs)) as [H|H]; [rewrite decide_True; [reflexivity|right; exact H]|].
        destruct (decide (x = y)) as [->|N]; [rewrite lookup_delete, decide_True; [reflexivity|left]|].
        rewrite lookup_delete_ne by exact N. rewrite decide_False; [reflexivity|]. rewrite elem_of_cons. naive_solver.
      * intros y Hy. apply B in Hy as [Hy|Hy]; [|right; right; exact Hy]. apply elem_of_cons in Hy as [->|Hy]; [right; left|left; exact Hy].
      * intros y Hy. apply C. right. exact Hy.
      * rewrite D. cbn. rewrite map_size_delete_Some by eauto. assert (size inp <> 0) by (intros Z; apply map_size_empty_iff in Z; subst; discriminate). lia.
    + destruct (IH inp ({[x]} ∪ rv) next) as (inp' & next' & F & A & B & C & D). exists inp', next'.
      split; [rewrite F; cbn; f_equal; f_equal; set_solver|]. split; [|split; [|split]]; auto.
      * intros y. rewrite A. destruct (decide (y ∈ xs)) as [H|H]; [rewrite decide_True; [reflexivity|right; exact H]|].
        destruct (decide (x = y)) as [->|N]; [rewrite decide_True; [exact E|left]|].
        rewrite decide_False; [reflexivity|]. rewrite elem_of_cons. naive_solver.
      * intros y Hy. apply B in Hy as [Hy|Hy]; [left; exact Hy|right; right; exact Hy].
Qed.

Section members.
Context (order : gset nat -> list nat) (Hord : some_order order).
Lemma order_elem s x : x ∈ order s <-> x ∈ s.
Proof. rewrite (Hord s), elem_of_elements. reflexivity. Qed.

Lemma cascade_unfold f s next inp rv rdep td :
  cascade order (S f) (s :: next) inp rv rdep td =
    let '(inp0, td0) := match inp !! s with Some d => (delete s inp, td ++ [(d_delegate d, s)]) | None => (inp, td) end in
    match rdep !! s with
    | Some ds => let '(inp1, rv1, next1) := foldl cascade_step (inp0, {[ s ]} ∪ rv, next) (order ds) in cascade order f next1 inp1 rv1 rdep td0
    | None => cascade order f next inp0 ({[ s ]} ∪ rv) rdep td0
    end.
Proof. cbn [cascade]. destruct (inp !! s); reflexivity. Qed.

Lemma cascade_total f next inp rv rdep td : length next + size inp <= f -> exists x, cascade order f next inp rv rdep td = Some x.
Proof.
  revert next inp rv td. induction f as [|f IH]; intros [|s next] inp rv td L; try (cbn; eauto; fail); [cbn in L; lia|].
  rewrite cascade_unfold. cbn in L.
  assert (G : forall inp0 td0, size inp0 <= size inp ->
    exists x, (match rdep !! s with
    | Some ds => let '(inp1, rv1, next1) := foldl cascade_step (inp0, {[ s ]} ∪ rv, next) (order ds) in cascade order f next1 inp1 rv1 rdep td0
    | None => cascade order f next inp0 ({[ s ]} ∪ rv) rdep td0
    end) = Some x).
  { intros inp0 td0 Ls. destruct (rdep !! s) as [ds|]; [|apply IH; lia].
    destruct (cascade_fold (order ds) inp0 ({[s]} ∪ rv) next) as (inp1 & next1 & E & _ & _ & _ & Ln). rewrite E. apply IH. lia. }
  destruct (inp !! s) as [d|] eqn:E; apply G; [|lia]. rewrite map_size_delete_Some by eauto. lia.
Qed.
Lemma cascade_spec (Q : sig -> Prop) f next inp rv rdep td inp' rv' td' :
  (forall x, x ∈ next -> Q x) -> (forall x y ds, Q x -> rdep !! x = Some ds -> y ∈ ds -> Q y) ->
  cascade order f next inp rv rdep td = Some (inp', rv', td') ->
  inp' ⊆ inp /\ (forall x, ~ Q x -> inp' !! x = inp !! x) /\ (forall x, x ∈ rv' -> x ∈ rv \/ Q x) /\ rv ⊆ rv' /\
  (forall x, x ∈ next -> x ∈ rv') /\ ((forall x, x ∈ next -> inp !! x = None) -> td' = td).
Proof.
  intros Hn Hc. revert next inp rv td Hn. induction f as [|f IH]; intros [|s next] inp rv td Hn E; cbn in E; try discriminate;
    try (injection E as <- <- <-; repeat split; auto; fail).
  { injection E as <- <- <-. repeat split; auto. intros x H. inversion H. }
  { injection E as <- <- <-. repeat split; auto. intros x H. inversion H. }
  change (cascade order (S f) (s :: next) inp rv rdep td = Some (inp', rv', td')) in E. rewrite cascade_unfold in E.
  assert (Qs : Q s) by (apply Hn; left).
  set (inp0 := match inp !! s with Some d => delete s inp | None => inp end).
  set (td0 := match inp !! s with Some d => td ++ [(d_delegate d, s)] | None => td end).
  assert (E' : match rdep !! s with
    | Some ds => let '(inp1, rv1, next1) := foldl cascade_step (inp0, {[ s ]} ∪ rv, next) (order ds) in cascade order f next1 inp1 rv1 rdep td0
    | None => cascade order f next inp0 ({[ s ]} ∪ rv) rdep td0
    end = Some (inp', rv', td')) by (unfold inp0, td0; destruct (inp !! s); exact E).
  clear E. assert (S0 : inp0 ⊆ inp) by (unfold inp0; destruct (inp !! s); [apply delete_subseteq|reflexivity]).
  assert (L0 : forall x, ~ Q x -> inp0 !! x = inp !! x).
  { intros x Nx. unfold inp0. destruct (inp !! s); [apply lookup_delete_ne; congruence|reflexivity]. }
  assert (T0 : (forall x, x ∈ s :: next -> inp !! x = None) -> td0 = td /\ forall x, x ∈ next -> inp0 !! x = None).
  { intros H. unfold td0, inp0. rewrite (H s) by left. split; [reflexivity|]. intros x Hx. apply H. right. exact Hx. }
  destruct (rdep !! s) as [ds|] eqn:Ed.
  - destruct (cascade_fold (order ds) inp0 ({[s]} ∪ rv) next) as (inp1 & next1 & F & A & B & C & D). rewrite F in E'.
    assert (S1 : inp1 ⊆ inp0). { apply map_subseteq_spec. intros x d. rewrite A. destruct (decide _); [discriminate|auto]. }
    apply IH in E' as (H1 & H2 & H3 & H4 & H5 & H6).
    + split; [transitivity inp1; [exact H1|transitivity inp0; assumption]|]. split.
      { intros x Nx. rewrite H2, A by exact Nx. rewrite decide_False; [apply L0, Nx|]. intros H. apply Nx. rewrite order_elem in H. eapply Hc; eauto. }
      split. { intros x Hx. apply H3 in Hx as [Hx|Hx]; [|auto]. apply elem_of_union in Hx as [Hx|Hx].
        - apply elem_of_list_to_set in Hx. rewrite order_elem in Hx. right. eapply Hc; eauto.
        - apply elem_of_union in Hx as [Hx|Hx]; [apply elem_of_singleton in Hx as ->; auto|auto]. }
      split; [set_solver|]. split.
      { intros x Hx. apply elem_of_cons in Hx as [->|Hx]; [set_solver|]. apply H5, C, Hx. }
      intros H. apply T0 in H as [Ht H]. rewrite <- Ht. apply H6. intros x Hx. apply B in Hx as [Hx|Hx].
      * specialize (H x Hx). destruct (inp1 !! x) as [d|] eqn:Q'; [|reflexivity]. eapply map_subseteq_spec in S1; [|exact Q']. congruence.
      * rewrite A, decide_True by exact Hx. reflexivity.
    + intros x Hx. apply B in Hx as [Hx|Hx]; [apply Hn; right; exact Hx|]. rewrite order_elem in Hx. eapply Hc; eauto.
  - apply IH in E' as (H1 & H2 & H3 & H4 & H5 & H6); [|intros x Hx; apply Hn; right; exact Hx].
    split; [transitivity inp0; assumption|]. split; [intros x Nx; rewrite H2; auto|]. split.
    { intros x Hx. apply H3 in Hx as [Hx|Hx]; [|auto]. apply elem_of_union in Hx as [Hx|Hx]; [apply elem_of_singleton in Hx as ->; auto|auto]. }
    split; [set_solver|]. split; [intros x Hx; apply elem_of_cons in Hx as [->|Hx]; [set_solver|auto]|].
    intros H. apply T0 in H as [Ht H]. rewrite <- Ht. apply H6, H.
Qed.
(** Everything the first entry causes: at most one delegation is dropped from the members. *)
Lemma cascade_drop f s inp rv rdep inp' rv' td' :
  cascade order (S f) [s] inp rv rdep [] = Some (inp', rv', td') ->
  td' = match inp !! s with Some d => [(d_delegate d, s)] | None => [] end /\ inp' !! s = None.
Proof.
  intros E. rewrite cascade_unfold in E. set (inp0 := match inp !! s with Some d => delete s inp | None => inp end).
  set (td0 := match inp !! s with Some d => [(d_delegate d, s)] | None => [] end).
  assert (E' : match rdep !! s with
    | Some ds => let '(inp1, rv1, next1) := foldl cascade_step (inp0, {[ s ]} ∪ rv, []) (order ds) in cascade order f next1 inp1 rv1 rdep td0
    | None => cascade order f [] inp0 ({[ s ]} ∪ rv) rdep td0
    end = Some (inp', rv', td')) by (unfold inp0, td0; destruct (inp !! s); exact E). clear E.
  assert (Hs : inp0 !! s = None) by (unfold inp0; destruct (inp !! s) eqn:Q; [apply lookup_delete|exact Q]).
  destruct (rdep !! s) as [ds|].
  - destruct (cascade_fold (order ds) inp0 ({[s]} ∪ rv) []) as (inp1 & next1 & F & A & B & C & D). rewrite F in E'.
    apply (cascade_spec (fun _ => True)) in E' as (H1 & _ & _ & _ & _ & H6); auto. split.
    + apply H6. intros x Hx. apply B in Hx as [Hx|Hx]; [inversion Hx|]. rewrite A, decide_True by exact Hx. reflexivity.
    + destruct (inp' !! s) as [d|] eqn:Q; [|reflexivity]. eapply map_subseteq_spec in H1; [|exact Q]. rewrite A in H1. destruct (decide _); congruence.
  - destruct f; cbn in E'; injection E' as <- <- <-; auto.
Qed.
(** Without dependents nothing else happens. *)
Lemma cascade_alone f s inp rv rdep : default ∅ (rdep !! s) = ∅ ->
  cascade order (S f) [s] inp rv rdep [] =
    Some (delete s inp, {[ s ]} ∪ rv, match inp !! s with Some d => [(d_delegate d, s)] | None => [] end).
Proof.
  intros Z. rewrite cascade_unfold.
  assert (D : inp !! s = None -> delete s inp = inp) by apply delete_notin.
  assert (F : forall inp0 td0, match rdep !! s with
    | Some ds => let '(inp1, rv1, next1) := foldl cascade_step (inp0, {[ s ]} ∪ rv, []) (order ds) in cascade order f next1 inp1 rv1 rdep td0
    | None => cascade order f [] inp0 ({[ s ]} ∪ rv) rdep td0
    end = Some (inp0, {[ s ]} ∪ rv, td0)).
  { intros inp0 td0. destruct (rdep !! s) as [ds|]; [|destruct f; reflexivity]. cbn in Z. subst ds.
    assert (order ∅ = []) as ->; [|destruct f; reflexivity]. pose proof (Hord ∅) as P. rewrite elements_empty in P. apply Permutation_nil. symmetry. exact P. }
  destruct (inp !! s) eqn:Q; rewrite F; [reflexivity|]. rewrite D; reflexivity.
Qed.

(** ** Playing operations *)
Definition has (m : gmap ident (list dlg)) (d : dlg) : Prop := exists l, m !! d_delegate d = Some l /\ d ∈ l.
Definition wf_members (m : gmap ident (list dlg)) : Prop :=
  forall i l, m !! i = Some l -> l <> [] /\ forall d, d ∈ l -> d_delegate d = i.
Lemma wf_has m i l d : wf_members m -> m !! i = Some l -> d ∈ l -> has m d.
Proof. intros W E H. exists l. split; [|exact H]. destruct (W _ _ E) as [_ D]. rewrite (D _ H). exact E. Qed.
Lemma drop_member_has m i s d : has (drop_member m (i, s)) d <-> has m d /\ (d_delegate d = i -> d_sig d <> s).
Proof.
  unfold has, drop_member. cbn. destruct (filter _ _) as [|x l] eqn:F.
  - destruct (decide (i = d_delegate d)) as [->|N].
    + rewrite lookup_delete. split; [intros (l & E & _); discriminate|]. intros [(l & E & H) S]. exfalso. rewrite E in F. cbn in F.
      assert (Q : d ∈ filter (λ x, d_sig x <> s) l) by (apply elem_of_list_filter; split; [apply S; reflexivity|exact H]).
      rewrite F in Q. inversion Q.
    + rewrite lookup_delete_ne by exact N. split; [intros H; split; [exact H|congruence]|tauto].
  - destruct (decide (i = d_delegate d)) as [->|N].
    + rewrite lookup_insert. split.
      * intros (l' & [= <-] & H). rewrite <- F in H. apply elem_of_list_filter in H as [S H].
        destruct (m !! d_delegate d) as [l'|]; [|inversion H]. split; [eauto|auto].
      * intros [(l' & E & H) S]. exists (x :: l). split; [reflexivity|]. rewrite <- F. apply elem_of_list_filter. rewrite E. split; [apply S; reflexivity|exact H].
    + rewrite lookup_insert_ne by exact N. split; [intros H; split; [exact H|congruence]|tauto].
Qed.
Lemma drop_member_wf m i s : wf_members m -> wf_members (drop_member m (i, s)).
Proof.
  intros W j l. unfold drop_member. cbn. destruct (filter _ _) as [|x l'] eqn:F; intros E.
  - apply lookup_delete_Some in E as [_ E]. apply (W _ _ E).
  - apply lookup_insert_Some in E as [[<- <-]|[_ E]]; [|apply (W _ _ E)]. split; [discriminate|]. intros d H. rewrite <- F in H.
    apply elem_of_list_filter in H as [_ H]. destruct (m !! i) as [l|] eqn:Q; [|inversion H]. apply (W _ _ Q), H.
Qed.

Context (gid : ident) (P : mop -> Prop) (HC : closed P) (HU : genuine P).
Lemma sig_dlg d e : P (MD d) -> P (MD e) -> d_sig d = d_sig e -> d = e.
Proof. intros A B S. assert (Q : MD d = MD e) by (apply HU; auto). injection Q as ->. reflexivity. Qed.
Lemma proof_in d p : P (MD d) -> d_proof d = Some p -> P (MD p).
Proof. intros A E. eapply HC; [exact A|]. apply proof_parent, E. Qed.
Lemma lineage_in d p : P (MD d) -> p ∈ d :: lineage d -> P (MD p).
Proof.
  intros A H. apply elem_of_cons in H as [->|H]; [exact A|]. apply lineage_rtc in H.
  assert (G : forall a b, tc depends_on a b -> P a -> P b); [|eapply G; eauto].
  induction 1 as [a b D|a b c D _ IH]; intros Pa; [eapply HC; eauto|]. apply IH. eapply HC; eauto.
Qed.
(** [x] is the signature of the delegation [t] or of one that rests on it. *)
Definition below (t : dlg) (x : sig) : Prop := exists d t', P (MD d) /\ d_sig d = x /\ t' ∈ d :: lineage d /\ d_sig t' = d_sig t.

Record played (done : list mop) (s : play) : Prop := {
  pl_wf : wf_members (p_members s);
  pl_has : forall d, has (p_members s) d -> MD d ∈ done;
  pl_in : forall x d, p_in s !! x = Some d -> d_sig d = x /\ MD d ∈ done /\ has (p_members s) d;
  pl_rdep : forall x y ds, p_rdep s !! x = Some ds -> y ∈ ds -> exists d p, MD d ∈ done /\ d_sig d = y /\ d_proof d = Some p /\ d_sig p = x;
  pl_rev : forall x, x ∈ p_revoked s -> exists r, MR r ∈ done /\ below (r_revoke r) x;
  pl_act : forall x r, p_active s !! x = Some r -> MR r ∈ done /\ r_sig r = x
}.
Lemma played_start : played [] no_play.
Proof.
  constructor; cbn.
  - intros i l E. rewrite lookup_empty in E. discriminate.
  - intros d (l & E & _). rewrite lookup_empty in E. discriminate.
  - intros x d E. rewrite lookup_empty in E. discriminate.
  - intros x y ds E. rewrite lookup_empty in E. discriminate.
  - intros x H. apply not_elem_of_empty in H. contradiction.
  - intros x r E. rewrite lookup_empty in E. discriminate.
Qed.
Lemma played_delegation done s d : P (MD d) -> played done s -> played (done ++ [MD d]) (play_delegation gid s d).
Proof.
  intros Pd [W H I R V A].
  assert (Hd : MD d ∈ done ++ [MD d]) by (apply elem_of_app; right; left).
  assert (Hm : forall o, o ∈ done -> o ∈ done ++ [MD d]) by (intros; apply elem_of_app; auto).
  set (rdep := match d_proof d with Some p => <[d_sig p := {[ d_sig d ]} ∪ default ∅ (p_rdep s !! d_sig p)]> (p_rdep s) | None => p_rdep s end).
  assert (R' : forall x y ds, rdep !! x = Some ds -> y ∈ ds -> exists d0 p, MD d0 ∈ done ++ [MD d] /\ d_sig d0 = y /\ d_proof d0 = Some p /\ d_sig p = x).
  { intros x y ds E Hy. unfold rdep in E. destruct (d_proof d) as [p|] eqn:Ep.
    - apply lookup_insert_Some in E as [[<- <-]|[_ E]].
      + apply elem_of_union in Hy as [Hy|Hy]; [apply elem_of_singleton in Hy as ->; exists d, p; auto|].
        destruct (p_rdep s !! d_sig p) as [ds|] eqn:Q; [|cbn in Hy; apply not_elem_of_empty in Hy; contradiction].
        destruct (R _ _ _ Q Hy) as (d0 & q & A1 & A2 & A3 & A4). exists d0, q. auto.
      + destruct (R _ _ _ E Hy) as (d0 & q & A1 & A2 & A3 & A4). exists d0, q. auto.
    - destruct (R _ _ _ E Hy) as (d0 & q & A1 & A2 & A3 & A4). exists d0, q. auto. }
  assert (Base : played (done ++ [MD d]) (Play (p_members s) (p_active s) (p_in s) (p_revoked s) rdep)).
  { constructor; cbn; auto.
    - intros x e E. destruct (I _ _ E) as (A1 & A2 & A3). auto.
    - intros x Hx. destruct (V _ Hx) as (r & A1 & A2). eauto.
    - intros x r E. destruct (A _ _ E). auto. }
  unfold play_delegation. fold rdep. cbv zeta. cbn [p_members p_active p_in p_revoked p_rdep].
  match goal with |- played _ (if ?b then _ else _) => destruct b end; [exact Base|]. destruct (bool_decide _); [exact Base|].
  assert (Hhas : forall e, has (<[d_delegate d:=default [] (p_members s !! d_delegate d) ++ [d]]> (p_members s)) e <-> has (p_members s) e \/ e = d).
  { intros e. unfold has. destruct (decide (d_delegate d = d_delegate e)) as [Q|Q].
    - rewrite <- Q, lookup_insert. split.
      + intros (l & [= <-] & K). apply elem_of_app in K as [K|K]; [|right; apply elem_of_list_singleton, K]. left.
        destruct (p_members s !! d_delegate d) as [l|]; [eauto|inversion K].
      + intros [(l & E & K)| ->]; (eexists; split; [reflexivity|]); apply elem_of_app; [left; rewrite E; exact K|right; left].
    - rewrite lookup_insert_ne by exact Q. split; [auto|]. intros [K| ->]; [exact K|congruence]. }
  constructor; cbn.
  - intros i l E. apply lookup_insert_Some in E as [[<- <-]|[_ E]]; [|apply (W _ _ E)]. split; [destruct (default [] _); discriminate|].
    intros e K. apply elem_of_app in K as [K|K]; [|apply elem_of_list_singleton in K as ->; reflexivity].
    destruct (p_members s !! d_delegate d) as [l|] eqn:Q; [|inversion K]. apply (W _ _ Q), K.
  - intros e K. apply Hhas in K as [K| ->]; auto.
  - intros x e E. apply lookup_insert_Some in E as [[<- <-]|[_ E]].
    + split; [reflexivity|]. split; [exact Hd|]. apply Hhas. auto.
    + destruct (I _ _ E) as (A1 & A2 & A3). split; [exact A1|]. split; [auto|]. apply Hhas. auto.
  - exact R'.
  - intros x Hx. destruct (V _ Hx) as (r & A1 & A2). eauto.
  - intros x r E. destruct (A _ _ E). auto.
Qed.
Lemma below_step t (rdep : gmap sig (gset sig)) (done : list mop) : (forall o, o ∈ done -> P o) ->
  (forall x y ds, rdep !! x = Some ds -> y ∈ ds -> exists d p, MD d ∈ done /\ d_sig d = y /\ d_proof d = Some p /\ d_sig p = x) ->
  forall x y ds, below t x -> rdep !! x = Some ds -> y ∈ ds -> below t y.
Proof.
  intros Hd R x y ds (d & t' & Pd & <- & L & S) E Hy. destruct (R _ _ _ E Hy) as (e & p & He & <- & Ep & Sp).
  assert (p = d) as ->. { apply sig_dlg; auto. eapply proof_in; [|exact Ep]. auto. }
  exists e, t'. split; [auto|]. split; [reflexivity|]. split; [|exact S]. right. rewrite (lineage_proof _ _ Ep). exact L.
Qed.
Lemma played_revocation done s r : P (MR r) -> (forall o, o ∈ done -> P o) -> played done s ->
  exists s', play_revocation order gid s r = Some s' /\ played (done ++ [MR r]) s'.
Proof.
  intros Pr Hdone [W H I R V A].
  assert (Hd : MR r ∈ done ++ [MR r]) by (apply elem_of_app; right; left).
  assert (Hm : forall o, o ∈ done -> o ∈ done ++ [MR r]) by (intros; apply elem_of_app; auto).
  unfold play_revocation. cbv zeta. match goal with |- context [if ?b then Some s else _] => destruct b end.
  { exists s. split; [reflexivity|]. constructor; auto.
    - intros x e E. destruct (I _ _ E) as (A1 & A2 & A3). auto.
    - intros x y ds E Hy. destruct (R _ _ _ E Hy) as (d & p & A1 & A2). exists d, p. auto.
    - intros x Hx. destruct (V _ Hx) as (r' & A1 & A2). eauto.
    - intros x r' E. destruct (A _ _ E). auto. }
  destruct (cascade_total (S (size (p_in s))) [d_sig (r_revoke r)] (p_in s) (p_revoked s) (p_rdep s) []) as [[[inp rv] td] E]; [cbn; lia|].
  rewrite E. eexists. split; [reflexivity|].
  pose proof (cascade_drop _ _ _ _ _ _ _ _ E) as [Td Gone].
  assert (Pt : P (MD (r_revoke r))) by (eapply HC; [exact Pr|apply revoke_parent]).
  apply (cascade_spec (below (r_revoke r))) in E as (S1 & S2 & S3 & S4 & S5 & _);
    [|intros x Hx; apply elem_of_list_singleton in Hx as ->; exists (r_revoke r), (r_revoke r); repeat split; [exact Pt|left]
     |apply (below_step _ _ done Hdone R)].
  assert (Hsub : forall e, has (foldl drop_member (p_members s) td) e -> has (p_members s) e).
  { intros e. rewrite Td. destruct (p_in s !! _); cbn; [|auto]. intros K. apply drop_member_has in K. tauto. }
  constructor; cbn.
  - rewrite Td. destruct (p_in s !! _); cbn; [apply drop_member_wf, W|exact W].
  - intros e K. auto.
  - intros x e Q. eapply map_subseteq_spec in S1; [|exact Q]. destruct (I _ _ S1) as (A1 & A2 & A3). split; [exact A1|]. split; [auto|].
    rewrite Td. destruct (p_in s !! d_sig (r_revoke r)) as [t|] eqn:Qt; cbn; [|exact A3]. apply drop_member_has. split; [exact A3|].
    intros _ Q'. rewrite A1 in Q'. subst x. congruence.
  - intros x y ds Q Hy. destruct (R _ _ _ Q Hy) as (d & p & A1 & A2). exists d, p. auto.
  - intros x Hx. apply S3 in Hx as [Hx|Hx]; [destruct (V _ Hx) as (r' & A1 & A2); eauto|exists r; auto].
  - intros x r' Q. apply lookup_insert_Some in Q as [[<- <-]|[_ Q]]; [auto|]. destruct (A _ _ Q). auto.
Qed.
Lemma play_ops_one s o : play_ops order gid s [o] = play_op order gid s o.
Proof. cbn. destruct (play_op order gid s o); reflexivity. Qed.
Lemma play_ops_app s a b : play_ops order gid s (a ++ b) = match play_ops order gid s a with Some s => play_ops order gid s b | None => None end.
Proof. revert s. induction a as [|o a IH]; intros s; cbn; [reflexivity|]. destruct (play_op order gid s o); [apply IH|reflexivity]. Qed.
Lemma played_all ops : (forall o, o ∈ ops -> P o) -> exists s, play_ops order gid no_play ops = Some s /\ played ops s.
Proof.
  induction ops as [|o ops IH] using List.rev_ind; intros Ho; [exists no_play; split; [reflexivity|apply played_start]|].
  destruct IH as (s & E & I); [intros o' H'; apply Ho, elem_of_app; auto|]. rewrite play_ops_app, E, play_ops_one.
  assert (Po : P o) by (apply Ho, elem_of_app; right; left). destruct o as [d|r]; cbn.
  - eexists. split; [reflexivity|]. apply played_delegation; assumption.
  - destruct (played_revocation _ _ r Po (fun o' H' => Ho o' (proj2 (elem_of_app _ _ _) (or_introl H'))) I) as (s' & E' & I').
    rewrite E'. eauto.
Qed.

(** ** What stays and what goes *)
Definition causal (ops : list mop) : Prop := forall a o b, ops = a ++ o :: b -> forall p, p ∈ parents o -> p ∈ a.
Definition late (ops : list mop) : Prop := forall a r b, ops = a ++ MR r :: b ->
  forall d p, MD d ∈ a -> d_proof d = Some p -> d_sig p <> d_sig (r_revoke r).
Lemma causal_prefix ops o : causal (ops ++ [o]) -> causal ops.
Proof. intros C a x b -> p Hp. apply (C a x (b ++ [o])); [rewrite <- app_assoc; reflexivity|exact Hp]. Qed.
Lemma late_prefix ops o : late (ops ++ [o]) -> late ops.
Proof. intros C a x b -> d p Hd. apply (C a x (b ++ [o])); [rewrite <- app_assoc; reflexivity|exact Hd]. Qed.
Lemma play_delegation_in s d x : p_in (play_delegation gid s d) !! x = p_in s !! x \/
  (x = d_sig d /\ p_in (play_delegation gid s d) !! x = Some d).
Proof.
  unfold play_delegation. cbv zeta. cbn [p_members p_active p_in p_revoked p_rdep].
  match goal with |- p_in (if ?b then _ else _) !! _ = _ \/ _ => destruct b end; [auto|].
  destruct (bool_decide _); [auto|]. cbn. destruct (decide (d_sig d = x)) as [<-|N]; [rewrite lookup_insert; auto|rewrite lookup_insert_ne by exact N; auto].
Qed.
Lemma play_delegation_has s d e : has (p_members (play_delegation gid s d)) e -> has (p_members s) e \/
  (e = d /\ p_in (play_delegation gid s d) !! d_sig d = Some d).
Proof.
  unfold play_delegation. cbv zeta. cbn [p_members p_active p_in p_revoked p_rdep].
  match goal with |- has (p_members (if ?b then _ else _)) _ -> _ => destruct b end; [auto|].
  destruct (bool_decide _); [auto|]. cbn. unfold has. destruct (decide (d_delegate d = d_delegate e)) as [Q|N].
  - rewrite <- Q, lookup_insert. intros (l & [= <-] & K). apply elem_of_app in K as [K|K].
    + left. destruct (p_members s !! d_delegate d); [eauto|inversion K].
    + apply elem_of_list_singleton in K as ->. rewrite lookup_insert. auto.
  - rewrite lookup_insert_ne by exact N. auto.
Qed.
Lemma play_delegation_grant s d : d_sig d ∉ p_revoked s ->
  match d_proof d with Some p => d_sig p ∉ p_revoked s /\ is_Some (p_in s !! d_sig p) | None => d_issuer d = gid end ->
  p_in (play_delegation gid s d) !! d_sig d = Some d.
Proof.
  intros Nd C. unfold play_delegation. cbv zeta. cbn [p_members p_active p_in p_revoked p_rdep].
  match goal with |- p_in (if ?b then _ else _) !! _ = _ => assert (B : b = false) end.
  { destruct (d_proof d) as [p|].
    - rewrite bool_decide_eq_false_2; [reflexivity|]. destruct C as [C1 [e C2]]. intros [H|H]; [contradiction|congruence].
    - rewrite C, Nat.eqb_refl. reflexivity. }
  rewrite B, bool_decide_eq_false_2 by exact Nd. cbn. apply lookup_insert.
Qed.
Lemma play_active_delegation s d : p_active (play_delegation gid s d) = p_active s.
Proof.
  unfold play_delegation. cbv zeta. cbn [p_members p_active p_in p_revoked p_rdep].
  match goal with |- p_active (if ?b then _ else _) = _ => destruct b end; [reflexivity|]. destruct (bool_decide _); reflexivity.
Qed.
Lemma untouched_weaken (Q Q' : mop -> Prop) d : (forall o, Q o -> Q' o) -> untouched Q' d -> untouched Q d.
Proof. intros S U t r Ht Hr. apply U; auto. Qed.
Lemma revoked_touched ops s d : (forall o, o ∈ ops -> P o) -> P (MD d) -> played ops s -> untouched (fun o => o ∈ ops) d -> d_sig d ∉ p_revoked s.
Proof.
  intros Ho Pd I U H. destruct (pl_rev _ _ I _ H) as (r & Hr & e & t' & Pe & Se & Ht & St).
  assert (e = d) as -> by (apply sig_dlg; auto). apply (U t' r Ht Hr). symmetry. exact St.
Qed.
Lemma play_revocation_cases s r s' : play_revocation order gid s r = Some s' ->
  (s' = s /\ match r_proof r with
              | Some p => d_sig p ∈ p_revoked s \/ p_in s !! d_sig p = None
              | None => r_issuer r <> gid
              end) \/
  exists inp rv td, cascade order (S (size (p_in s))) [d_sig (r_revoke r)] (p_in s) (p_revoked s) (p_rdep s) [] = Some (inp, rv, td) /\
    s' = Play (foldl drop_member (p_members s) td) (<[r_sig r := r]> (p_active s)) inp rv (p_rdep s).
Proof.
  unfold play_revocation. cbv zeta. match goal with |- context [if ?b then Some s else _] => destruct b eqn:B end.
  - intros [= <-]. left. split; [reflexivity|]. destruct (r_proof r) as [p|].
    + destruct (bool_decide _) eqn:D; [apply bool_decide_eq_true in D; exact D|discriminate].
    + apply negb_true_iff, Nat.eqb_neq in B. exact B.
  - destruct (cascade _ _ _ _ _ _ _) as [[[inp rv] td]|]; [|discriminate]. intros [= <-]. right. eauto 10.
Qed.

Lemma played_keep ops s : (forall o, o ∈ ops -> P o) -> causal ops -> play_ops order gid no_play ops = Some s ->
  forall d, MD d ∈ ops -> d_subject d = gid -> untouched (fun o => o ∈ ops) d -> p_in s !! d_sig d = Some d.
Proof.
  revert s. induction ops as [|o ops IH] using List.rev_ind; intros s Ho C E d Hd Sd U; [inversion Hd|].
  assert (Ho' : forall o', o' ∈ ops -> P o') by (intros; apply Ho, elem_of_app; auto).
  destruct (played_all ops Ho') as (s0 & E0 & I0). rewrite play_ops_app, E0, play_ops_one in E.
  specialize (fun C' => IH s0 Ho' C' E0). specialize (IH (causal_prefix _ _ C)).
  assert (U' : forall e, untouched (fun o' => o' ∈ ops ++ [o]) e -> untouched (fun o' => o' ∈ ops) e).
  { intros e. apply untouched_weaken. intros o' H'. apply elem_of_app. auto. }
  destruct o as [e|r]; cbn in E.
  - injection E as <-. apply elem_of_app in Hd as [Hd|Hd].
    + destruct (play_delegation_in s0 e (d_sig d)) as [Q|[Q1 Q2]].
      * rewrite Q. apply IH; auto.
      * rewrite Q2. f_equal. apply sig_dlg; [apply Ho, elem_of_app; right; left|auto|auto].
    + apply elem_of_list_singleton in Hd. injection Hd as ->. assert (Pe : P (MD e)) by (apply Ho, elem_of_app; right; left).
      apply play_delegation_grant; [eapply revoked_touched; eauto|].
      destruct (d_proof e) as [p|] eqn:Ep; [|destruct e; cbn in *; subst; reflexivity].
      assert (Hp : MD p ∈ ops) by (eapply (C ops (MD e) []); [reflexivity|apply proof_parent, Ep]).
      assert (Up : untouched (fun o' => o' ∈ ops) p).
      { intros t r Ht Hr. apply U; [right; rewrite (lineage_proof _ _ Ep); exact Ht|apply elem_of_app; auto]. }
      split; [eapply revoked_touched; eauto|]. exists p. apply IH; auto. destruct e; cbn in *. subst. reflexivity.
  - apply elem_of_app in Hd as [Hd|Hd]; [|apply elem_of_list_singleton in Hd; discriminate].
    assert (Q : p_in s0 !! d_sig d = Some d) by (apply IH; auto).
    apply play_revocation_cases in E as [[-> _]|(inp & rv & td & E & ->)]; [exact Q|]. cbn.
    apply (cascade_spec (below (r_revoke r))) in E as (_ & S2 & _);
      [|intros x Hx; apply elem_of_list_singleton in Hx as ->; exists (r_revoke r), (r_revoke r); repeat split;
         [eapply HC; [apply Ho, elem_of_app; right; left|apply revoke_parent]|left]
       |apply (below_step _ _ ops Ho'), (pl_rdep _ _ I0)].
    rewrite S2; [exact Q|]. intros (e & t' & Pe & Se & Ht & St). assert (e = d) as -> by (apply sig_dlg; auto).
    apply (U t' r Ht); [apply elem_of_app; right; left|symmetry; exact St].
Qed.
Lemma played_active ops s : (forall o, o ∈ ops -> P o) -> NoDup ops -> causal ops -> play_ops order gid no_play ops = Some s ->
  forall r, MR r ∈ ops ->
    match r_proof r with
    | Some p => d_subject p = gid /\ untouched (fun o => o ∈ ops /\ o <> MR r) p
    | None => r_issuer r = gid
    end -> p_active s !! r_sig r = Some r.
Proof.
  revert s. induction ops as [|o ops IH] using List.rev_ind; intros s Ho ND C E r Hr A; [inversion Hr|].
  assert (Ho' : forall o', o' ∈ ops -> P o') by (intros; apply Ho, elem_of_app; auto).
  apply NoDup_app in ND as (ND & Nin & _).
  destruct (played_all ops Ho') as (s0 & E0 & I0). rewrite play_ops_app, E0, play_ops_one in E.
  assert (IH' : MR r ∈ ops -> p_active s0 !! r_sig r = Some r).
  { intros H. apply (IH s0 Ho' ND (causal_prefix _ _ C) E0); [exact H|]. destruct (r_proof r) as [p|]; [|exact A]. destruct A as [A1 A2]. split; [exact A1|].
    eapply untouched_weaken; [|exact A2]. intros o' [H1 H2]. split; [apply elem_of_app; auto|exact H2]. }
  destruct o as [e|r']; cbn in E.
  - injection E as <-. rewrite play_active_delegation. apply elem_of_app in Hr as [Hr|Hr]; [auto|apply elem_of_list_singleton in Hr; discriminate].
  - apply elem_of_app in Hr as [Hr|Hr].
    + apply play_revocation_cases in E as [[-> _]|(inp & rv & td & E & ->)]; [auto|]. cbn. rewrite lookup_insert_ne; [auto|].
      intros Q. assert (Q' : MR r' = MR r) by (apply HU; [apply Ho, elem_of_app; right; left|apply Ho'; exact Hr|exact Q]).
      apply (Nin (MR r) Hr). rewrite Q'. left.
    + apply elem_of_list_singleton in Hr. injection Hr as ->.
      apply play_revocation_cases in E as [[_ K]|(inp & rv & td & E & ->)]; [exfalso|apply lookup_insert].
      destruct (r_proof r') as [p|] eqn:Ep; [|contradiction]. destruct A as [A1 A2].
      assert (Hp : MD p ∈ ops) by (eapply (C ops (MR r') []); [reflexivity|cbn; rewrite Ep; right; left]).
      assert (Up : untouched (fun o' => o' ∈ ops) p).
      { eapply untouched_weaken; [|exact A2]. intros o' H'. split; [apply elem_of_app; auto|]. intros ->. apply (Nin _ H'). left. }
      destruct K as [K|K]; [eapply revoked_touched; [exact Ho'|apply Ho', Hp|exact I0|exact Up|exact K]|].
      rewrite (played_keep ops s0 Ho' (causal_prefix _ _ C) E0 p Hp A1 Up) in K. discriminate.
Qed.
Lemma no_dependents ops s r : late (ops ++ [MR r]) -> played ops s -> default ∅ (p_rdep s !! d_sig (r_revoke r)) = ∅.
Proof.
  intros L I. destruct (p_rdep s !! d_sig (r_revoke r)) as [ds|] eqn:E; [|reflexivity]. cbn.
  destruct (decide (ds = ∅)) as [->|N]; [reflexivity|]. apply set_choose_L in N as (y & Hy).
  destruct (pl_rdep _ _ I _ _ _ E Hy) as (d & p & Hd & _ & Ep & Sp). exfalso. exact (L ops r [] eq_refl d p Hd Ep Sp).
Qed.
Lemma played_strict ops s : (forall o, o ∈ ops -> P o) -> NoDup ops -> causal ops -> late ops -> play_ops order gid no_play ops = Some s ->
  (forall d, has (p_members s) d -> p_in s !! d_sig d = Some d) /\
  (forall x r, p_active s !! x = Some r -> p_in s !! d_sig (r_revoke r) = None).
Proof.
  revert s. induction ops as [|o ops IH] using List.rev_ind; intros s Ho ND C L E.
  { injection E as <-. cbn. split; [intros d (l & Q & _); rewrite lookup_empty in Q; discriminate|intros x r Q; rewrite lookup_empty in Q; discriminate]. }
  assert (Ho' : forall o', o' ∈ ops -> P o') by (intros; apply Ho, elem_of_app; auto).
  apply NoDup_app in ND as (ND & Nin & _).
  destruct (played_all ops Ho') as (s0 & E0 & I0). rewrite play_ops_app, E0, play_ops_one in E.
  destruct (IH s0 Ho' ND (causal_prefix _ _ C) (late_prefix _ _ L) E0) as [S1 S2].
  assert (Po : P o) by (apply Ho, elem_of_app; right; left).
  destruct o as [e|r]; cbn in E.
  - injection E as <-. split.
    + intros d K. apply play_delegation_has in K as [K|[-> K]]; [|exact K].
      destruct (play_delegation_in s0 e (d_sig d)) as [Q|[Q1 Q2]]; [rewrite Q; auto|].
      rewrite Q2. f_equal. apply sig_dlg; [exact Po| |auto]. apply Ho', (pl_has _ _ I0), K.
    + intros x r K. rewrite play_active_delegation in K. pose proof (S2 _ _ K) as Z. apply (pl_act _ _ I0) in K as [K _].
      destruct (play_delegation_in s0 e (d_sig (r_revoke r))) as [Q|[Q1 Q2]]; [rewrite Q; exact Z|exfalso].
      assert (Ht : MD (r_revoke r) ∈ ops).
      { apply elem_of_list_split in K as (a & b & ->). apply elem_of_app. left. eapply (causal_prefix _ _ C); [reflexivity|apply revoke_parent]. }
      assert (MD (r_revoke r) = MD e) as Q by (apply HU; auto). rewrite Q in Ht. apply (Nin _ Ht). left.
  - apply play_revocation_cases in E as [[-> _]|(inp & rv & td & E & ->)]; [auto|].
    rewrite (cascade_alone _ _ _ _ _ (no_dependents _ _ _ L I0)) in E. injection E as <- <- <-. cbn. split.
    + intros d K.
      assert (K' : has (p_members s0) d /\ (d_delegate d = d_delegate (r_revoke r) -> d_sig d <> d_sig (r_revoke r)) \/ p_in s0 !! d_sig (r_revoke r) = None /\ has (p_members s0) d).
      { destruct (p_in s0 !! d_sig (r_revoke r)) as [t|] eqn:Q; cbn in K; [|auto]. left. apply drop_member_has in K as [K1 K2]. split; [exact K1|].
        destruct (pl_in _ _ I0 _ _ Q) as (St & Ht & _). assert (t = r_revoke r) as -> by (apply sig_dlg; [auto|eapply HC; [exact Po|apply revoke_parent]|exact St]). exact K2. }
      assert (Kd : has (p_members s0) d) by tauto. rewrite lookup_delete_ne; [auto|]. intros Q.
      assert (d = r_revoke r) as ->. { apply sig_dlg; [apply Ho', (pl_has _ _ I0), Kd|eapply HC; [exact Po|apply revoke_parent]|auto]. }
      destruct K' as [[_ K']|[K' _]]; [apply K'; reflexivity|]. rewrite (S1 _ Kd) in K'. discriminate.
    + intros x r' K. destruct (decide (d_sig (r_revoke r) = d_sig (r_revoke r'))) as [->|N]; [apply lookup_delete|].
      rewrite lookup_delete_ne by exact N. apply lookup_insert_Some in K as [[_ ->]|[_ K]]; [congruence|]. eapply S2, K.
Qed.
End members.

(** The result does not depend on the order of iteration when no revocation finds dependents. *)
Lemma play_ops_order order order' gid P ops : some_order order -> some_order order' -> closed P -> genuine P ->
  (forall o, o ∈ ops -> P o) -> late ops -> play_ops order gid no_play ops = play_ops order' gid no_play ops.
Proof.
  intros H1 H2 C U. induction ops as [|o ops IH] using List.rev_ind; intros Ho L; [reflexivity|].
  assert (Ho' : forall o', o' ∈ ops -> P o') by (intros; apply Ho, elem_of_app; auto).
  rewrite !play_ops_app, <- (IH Ho' (late_prefix _ _ L)).
  destruct (played_all order H1 gid P C U ops Ho') as (s0 & E0 & I0). rewrite E0. cbn. destruct o as [d|r]; [reflexivity|]. cbn.
  assert (Q : play_revocation order gid s0 r = play_revocation order' gid s0 r); [|rewrite Q; reflexivity].
  unfold play_revocation. cbv zeta. destruct (match r_proof r with Some _ => _ | None => _ end); [reflexivity|].
  rewrite !(fun o H => cascade_alone o H _ _ _ _ _ (no_dependents P _ _ _ L I0)); auto.
Qed.
