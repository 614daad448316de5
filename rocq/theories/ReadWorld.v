(** The key tree of a group in which changes of members take turns, as a function of its operations. *)
From Coq Require Import Arith Lia.
From stdpp Require Import base list gmap relations.
From Verif Require Import ResModel KeysModel KeysProofs TreeMathModel TreeMathSpec TreeMathProofs TreeModel TreeSpec TreeOps TreeView TreeProofs TreeInv TreeRun
  OpsModel OpsSpec OpsAlone CgkaModel CgkaSpec CgkaProofs CgkaConverge CgkaRow NetSpec NetProofs GrowSpec ReadSpec ReadTree.

(** ** Positions, and the operations in force *)
(** The leaves whose paths an operation writes or blanks.  A removal also blanks the paths
    of the blank leaves before the removed one that have become the last. *)
Definition touches (ops : gmap digest signed_op) (x : digest) (i' : nat) : Prop :=
  exists o, ops !! x = Some o /\
    match so_op o with
    | CAdd _ _ i _ _ => i' = i
    | CRemove id i _ _ => i' = i \/ (i' < i /\ forall id' j, i' <= j -> seat ops (fun y => came_before ops y x) id' j -> id' = id)
    | CUpdate _ pc _ => i' = pc_leaf_idx pc
    end.
Definition beneath (ops : gmap digest signed_op) (x : digest) (k j : nat) : Prop := exists i', touches ops x i' /\ anc i' k = j.
(** [x] is the last word, or one of several, on the node [(k, j)]. *)
Record live (ops : gmap digest signed_op) (D : gset digest) (k j : nat) (x : digest) : Prop := {
  lv_in : x ∈ D;
  lv_beneath : beneath ops x k j;
  lv_last y : y ∈ D -> beneath ops y k j -> ~ came_before ops x y
}.
Definition version_of (ops : gmap digest signed_op) (x : digest) (k : nat) (v : version) : Prop :=
  exists o id pc ps n, ops !! x = Some o /\ so_op o = CUpdate id pc ps /\ pc_path pc !! k = Some (n, [v]).
Definition gives (ops : gmap digest signed_op) (x : digest) (id : member_id) (pk : share_key) : Prop :=
  exists o, ops !! x = Some o /\
    ((exists i ps qs, so_op o = CAdd id pk i ps qs) \/ (exists pc ps, so_op o = CUpdate id pc ps /\ pc_leaf_id pc = id /\ pc_leaf_pk pc = SKey pk)).

Definition adds_b (ops : gmap digest signed_op) (x : digest) : bool := match ops !! x with Some o => is_add (so_op o) | None => false end.
Definition adds (ops : gmap digest signed_op) (D : gset digest) : gset digest := filter (fun x => adds_b ops x = true) D.
Definition tall (ops : gmap digest signed_op) (D : gset digest) (h : nat) : Prop :=
  (forall a o id pk i ps qs, a ∈ D -> ops !! a = Some o -> so_op o = CAdd id pk i ps qs -> i < 2 ^ h) /\ 1 <= h /\
  (h = 1 \/ exists a o id pk i ps qs, a ∈ D /\ ops !! a = Some o /\ so_op o = CAdd id pk i ps qs /\ 2 ^ (h - 1) <= i).

Record describes (ops : gmap digest signed_op) (D : gset digest) (t : tree) (h : nat) : Prop := {
  ds_shape : shape t h;
  ds_ids id i : t_ids t !! id = Some i <-> seat ops (fun x => x ∈ D) id i;
  ds_seat id i : t_ids t !! id = Some i <-> exists nk, leafv t i = Some (LeafNode id nk);
  ds_low id i : t_ids t !! id = Some i -> i < t_next t;
  ds_top : exists id i, t_ids t !! id = Some i /\ t_next t = S i;
  ds_count : t_next t <= size (adds ops D);
  ds_tall : tall ops D h;
  ds_leaf i id nk : leafv t i = Some (LeafNode id nk) <-> exists x pk, live ops D 0 i x /\ gives ops x id pk /\ nk = SKey pk;
  ds_inner k j s : innerv t k j = Some s -> s <> [] /\ NoDup s /\ forall v, v ∈ s <-> exists u, live ops D (S k) j u /\ version_of ops u k v;
  ds_none k j : innerv t k j = None -> forall u v, live ops D (S k) j u -> ~ version_of ops u k v
}.

Definition past (ops : gmap digest signed_op) (x : digest) (D : gset digest) : Prop := forall y, y ∈ D <-> came_before ops y x.

(** How an operation was made. *)
Definition well_made (ops : gmap digest signed_op) (x : digest) (op : cgka_op) : Prop :=
  match op with
  | CAdd id pk i _ _ => exists D0, past ops x D0 /\ ((D0 = ∅ /\ i = 0) \/ exists t0 h0, describes ops D0 t0 h0 /\ i = t_next t0 /\ t_ids t0 !! id = None)
  | CRemove id i _ _ => exists D0 t0 h0, past ops x D0 /\ describes ops D0 t0 h0 /\ t_ids t0 !! id = Some i /\ member_count t0 <> 1
  | CUpdate id pc ps => exists D0 t0 h0 i p0 pk vs rng rng', past ops x D0 /\ describes ops D0 t0 h0 /\
      t_ids t0 !! id = Some i /\ leafv t0 i = Some (LeafNode id (SKey p0)) /\
      enc_versions t0 h0 0 i pk rng = Some (vs, rng') /\
      pc = PathChange id i (SKey pk) (path_of 0 i vs) ([p0] ++ concat (map (fun n => ikeys t0 n.1 n.2) (above 0 i h0)))
  end.

(** ** Heights *)
Lemma tall_mono ops D h D' h' : tall ops D h -> tall ops D' h' -> (forall a o, a ∈ D -> ops !! a = Some o -> is_add (so_op o) = true -> a ∈ D') -> h <= h'.
Proof.
  intros (_ & B & C) (A' & B' & _) H. destruct C as [-> |(a & o & id & pk & i & ps & qs & Ha & E & Eo & L)]; [exact B'|].
  assert (Q : i < 2 ^ h') by (eapply A'; [eapply H; [exact Ha|exact E|rewrite Eo; reflexivity]|exact E|exact Eo]).
  destruct (Nat.le_gt_cases h h') as [|G]; [assumption|]. exfalso. pose proof (pow2_mono h' (h - 1) ltac:(lia)). lia.
Qed.

(** ** Sets of operations with the same changes of members *)
Definition same_members (ops : gmap digest signed_op) (D D' : gset digest) : Prop :=
  forall m o, ops !! m = Some o -> is_update (so_op o) = false -> m ∈ D <-> m ∈ D'.
Lemma seat_ext ops (P Q : digest -> Prop) id i : (forall m o, ops !! m = Some o -> is_update (so_op o) = false -> P m <-> Q m) -> seat ops P id i <-> seat ops Q id i.
Proof.
  assert (H : forall P Q : digest -> Prop, (forall m o, ops !! m = Some o -> is_update (so_op o) = false -> P m <-> Q m) -> seat ops P id i -> seat ops Q id i).
  { clear. intros P Q H (a & o & pk & ps & qs & Pa & E & Eo & R). exists a, o, pk, ps, qs. split; [apply (H a o E); [rewrite Eo; reflexivity|exact Pa]|].
    split; [exact E|]. split; [exact Eo|]. intros r o' j ks ps' Qr Er Eor. eapply R; [apply (H r o' Er); [rewrite Eor; reflexivity|exact Qr]|exact Er|exact Eor]. }
  intros S. split; apply H; [exact S|]. intros m o E U. symmetry. eapply S; eauto.
Qed.
Lemma same_ids ops D D' t t' h h' : describes ops D t h -> describes ops D' t' h' -> same_members ops D D' -> t_ids t' = t_ids t.
Proof.
  intros Ds Ds' S. apply map_eq. intros id. apply option_eq. intros i. rewrite (ds_ids _ _ _ _ Ds), (ds_ids _ _ _ _ Ds'). apply seat_ext. intros m o E U. symmetry. eapply S; eauto.
Qed.
Lemma next_of_ids ops D D' t t' h h' : describes ops D t h -> describes ops D' t' h' -> t_ids t' = t_ids t -> t_next t' = t_next t.
Proof.
  intros Ds Ds' E. destruct (ds_top _ _ _ _ Ds) as (id & i & A & B). destruct (ds_top _ _ _ _ Ds') as (id' & i' & A' & B').
  rewrite E in A'. apply (ds_low _ _ _ _ Ds) in A'. rewrite <- E in A. apply (ds_low _ _ _ _ Ds') in A. lia.
Qed.
Lemma same_height ops D D' t t' h h' : describes ops D t h -> describes ops D' t' h' -> same_members ops D D' -> h' = h.
Proof.
  intros Ds Ds' S. pose proof (ds_tall _ _ _ _ Ds) as T. pose proof (ds_tall _ _ _ _ Ds') as T'.
  assert (U : forall op, is_add op = true -> is_update op = false) by (intros []; [reflexivity|discriminate..]).
  apply Nat.le_antisymm.
  - eapply tall_mono; [exact T'|exact T|]. intros a o Ha E A. apply (S a o E); auto.
  - eapply tall_mono; [exact T|exact T'|]. intros a o Ha E A. apply (S a o E); auto.
Qed.

(** ** The order of a network's operations *)
Lemma before_same ops ops' x y : ops ⊆ ops' -> (forall p h, named ops p h -> is_Some (ops !! p)) -> is_Some (ops !! y) ->
  came_before ops' x y <-> came_before ops x y.
Proof.
  intros S C Hy. split.
  - intros B. revert Hy. assert (One : forall x y, named ops' x y -> is_Some (ops !! y) -> named ops x y).
    { intros a b (o & Eo & Ha) [o' Eo']. rewrite (lookup_weaken _ _ _ _ Eo' S) in Eo. injection Eo as ->. exists o. auto. }
    induction B as [x y B|x y z B _ IH]; intros Hz; [apply tc_once; auto|]. specialize (IH Hz). eapply tc_l; [|exact IH].
    apply One; [exact B|]. destruct IH as [a b Q|a b c Q _]; eapply C; eauto.
  - intros B. clear Hy. induction B as [x y (o & Eo & Hx)|x y z (o & Eo & Hx) _ IH].
    + apply tc_once. exists o. split; [eapply lookup_weaken; eauto|exact Hx].
    + eapply tc_l; [|exact IH]. exists o. split; [eapply lookup_weaken; eauto|exact Hx].
Qed.

Section world.
Context (ops : gmap digest signed_op) (OK : ops_ok ops).
Notation bef := (came_before ops).
Definition closed (D : gset digest) : Prop := (forall x, x ∈ D -> is_Some (ops !! x)) /\ forall x p, x ∈ D -> named ops p x -> p ∈ D.

Lemma bef_irr x : ~ bef x x.
Proof.
  intros B. pose proof (tc_last _ _ _ B) as [P|(p & B' & P)]; destruct P as (o & Eo & Hp).
  - apply (oo_unordered _ OK x o x x Eo Hp Hp). exact B.
  - apply (oo_unordered _ OK x o p p Eo Hp Hp). eapply tc_l; [exists o; eauto|exact B'].
Qed.
Lemma bef_trans x y z : bef x y -> bef y z -> bef x z.
Proof. intros. eapply tc_transitive; eauto. Qed.
Lemma bef_known x y : bef x y -> is_Some (ops !! x) /\ is_Some (ops !! y).
Proof.
  intros B. split.
  - destruct B as [a b Q|a b c Q _]; eapply (oo_closed _ OK); exact Q.
  - apply tc_last in B as [(o & Eo & _)|(z & _ & (o & Eo & _))]; eauto.
Qed.
Lemma closed_bef D x y : closed D -> bef x y -> y ∈ D -> x ∈ D.
Proof. intros [_ C] B. induction B as [x y P|x y z P _ IH]; intros H; [exact (C _ _ H P)|exact (C _ _ (IH H) P)]. Qed.
Lemma past_closed x D : past ops x D -> closed D.
Proof.
  intros P. split.
  - intros y Hy. apply P, bef_known in Hy. tauto.
  - intros y p Hy N. apply P. apply P in Hy. eapply tc_l; eauto.
Qed.

Context (CA : forall x o, ops !! x = Some o -> well_made ops x (so_op o)).
Lemma bef_dec x y : bef x y \/ ~ bef x y.
Proof.
  destruct (ops !! y) as [o|] eqn:E.
  - assert (Q : exists D0, past ops y D0).
    { specialize (CA _ _ E). unfold well_made in CA. destruct (so_op o); [destruct CA as (D0 & P & _); eauto|destruct CA as (D0 & ? & ? & P & _); eauto|].
      destruct CA as (D0 & ? & ? & ? & ? & ? & ? & ? & ? & P & _). eauto. }
    destruct Q as [D0 P]. destruct (decide (x ∈ D0)) as [H|H]; [left|right]; rewrite <- (P x); exact H.
  - right. intros B. apply bef_known in B as [_ [o Q]]. congruence.
Qed.

Lemma max_exists (P : digest -> Prop) x (l : list digest) : (forall y, P y \/ ~ P y) -> P x ->
  exists m, P m /\ (x = m \/ bef x m) /\ forall y, y ∈ l -> P y -> ~ bef m y.
Proof.
  intros Pd Px. induction l as [|y l (m & Pm & Hm & H)].
  - exists x. split; [exact Px|]. split; [auto|]. intros y Hy. inversion Hy.
  - destruct (Pd y) as [Py|Ny], (bef_dec m y) as [B|B].
    1: { exists y. split; [exact Py|]. split; [right; destruct Hm as [-> |Hm]; [exact B|eapply bef_trans; eauto]|]. intros z Hz Pz B'.
         apply elem_of_cons in Hz as [-> |Hz]; [exact (bef_irr _ B')|]. exact (H z Hz Pz (bef_trans _ _ _ B B')). }
    all: exists m; (split; [exact Pm|]); (split; [exact Hm|]); intros z Hz Pz; apply elem_of_cons in Hz as [-> |Hz]; [tauto|auto].
Qed.

Lemma touches_remove x o id i ks ps D0 t0 h0 i' : ops !! x = Some o -> so_op o = CRemove id i ks ps -> past ops x D0 -> describes ops D0 t0 h0 ->
  touches ops x i' <-> i' = i \/ (i' < i /\ map_Forall (fun id' j => i' <= j -> id' = id) (t_ids t0)).
Proof.
  intros E Eo P Ds.
  assert (Q : forall id' j, seat ops (fun y => came_before ops y x) id' j <-> t_ids t0 !! id' = Some j).
  { intros id' j. rewrite (ds_ids _ _ _ _ Ds). apply seat_ext. intros m om _ _. symmetry. apply P. }
  split.
  - intros (o' & E' & H). rewrite E in E'. injection E' as <-. rewrite Eo in H. destruct H as [H|[H1 H2]]; [auto|right]. split; [exact H1|].
    intros id' j Ej L. apply (H2 id' j L), Q, Ej.
  - intros H. exists o. split; [exact E|]. rewrite Eo. destruct H as [H|[H1 H2]]; [auto|right]. split; [exact H1|]. intros id' j L Sj. apply Q in Sj. exact (H2 _ _ Sj L).
Qed.
Lemma beneath_dec x k j : beneath ops x k j \/ ~ beneath ops x k j.
Proof.
  destruct (ops !! x) as [o|] eqn:E; [|right; intros (i' & (o & Q & _) & _); congruence].
  destruct (so_op o) as [id pk i ps qs|id i ks ps|id pc ps] eqn:Eo.
  2:{ pose proof (CA _ _ E) as W. rewrite Eo in W. destruct W as (D0 & t0 & h0 & P & Ds & _).
      destruct (decide (Exists (fun i' => (i' = i \/ (i' < i /\ map_Forall (fun id' j => i' <= j -> id' = id) (t_ids t0))) /\ anc i' k = j) (seq 0 (S i)))) as [H|H].
      - left. apply Exists_exists in H as (i' & _ & H & A). exists i'. split; [|exact A]. eapply touches_remove; eauto.
      - right. intros (i' & H' & A). apply H. apply Exists_exists. exists i'. apply (touches_remove _ _ _ _ _ _ _ _ _ _ E Eo P Ds) in H'. split; [|auto].
        apply elem_of_seq. lia. }
  1: destruct (decide (anc i k = j)) as [A|A]. 3: destruct (decide (anc (pc_leaf_idx pc) k = j)) as [A|A].
  1,3: left; eexists; (split; [exists o; (split; [exact E|]); rewrite Eo; reflexivity|exact A]).
  all: right; intros (i' & (o' & E' & H) & A'); rewrite E in E'; injection E' as <-; rewrite Eo in H; subst i'; contradiction.
Qed.
Lemma live_exists D k j x : x ∈ D -> beneath ops x k j -> exists m, live ops D k j m /\ (x = m \/ bef x m).
Proof.
  intros Hx B. destruct (max_exists (fun y => y ∈ D /\ beneath ops y k j) x (elements D)) as (m & [Hm Bm] & L & H).
  - intros y. destruct (decide (y ∈ D)) as [Hy|Hy], (beneath_dec y k j) as [By|By]; tauto.
  - auto.
  - exists m. split; [|exact L]. split; [exact Hm|exact Bm|]. intros y Hy By. apply H; [apply elem_of_elements, Hy|auto].
Qed.

Lemma beneath_up x k0 j0 k j : below k0 j0 k j -> beneath ops x k0 j0 -> beneath ops x k j.
Proof.
  intros [L E] (i' & Ht & H). exists i'. split; [exact Ht|]. rewrite <- H in E. change (anc (anc i' k0) (k - k0) = j) in E.
  rewrite anc_anc in E. replace (k0 + (k - k0)) with k in E by lia. exact E.
Qed.

(** ** Trees that agree on a subtree *)
Lemma live_same D D' k j x : (forall y, beneath ops y k j -> y ∈ D <-> y ∈ D') -> live ops D k j x -> live ops D' k j x.
Proof. intros H [A B C]. split; [apply H; auto|exact B|]. intros y Hy By. apply C; [apply H|]; auto. Qed.

Lemma same_nkey D D' t t' h h' k j k0 j0 : describes ops D t h -> describes ops D' t' h' -> (forall y, beneath ops y k j -> y ∈ D <-> y ∈ D') ->
  below k0 j0 k j -> nkey t k0 j0 = nkey t' k0 j0.
Proof.
  intros Ds Ds' H B.
  assert (H0 : forall y, beneath ops y k0 j0 -> y ∈ D <-> y ∈ D') by (intros y By; apply H; eapply beneath_up; eauto).
  assert (Half : forall D D' t t' h h', describes ops D t h -> describes ops D' t' h' -> (forall y, beneath ops y k0 j0 -> y ∈ D <-> y ∈ D') ->
    forall p, nkey t k0 j0 = Some p -> nkey t' k0 j0 = Some p).
  { clear. intros D D' t t' h h' Ds Ds' H p. destruct k0 as [|k]; cbn [nkey].
    - destruct (leafv t j0) as [[id nk]|] eqn:E; [|discriminate]. apply (ds_leaf _ _ _ _ Ds) in E as (x & pk & L & G & ->). intros Q. injection Q as ->.
      assert (E' : leafv t' j0 = Some (LeafNode id (SKey p))) by (apply (ds_leaf _ _ _ _ Ds'); exists x, p; split; [eapply live_same; eauto|auto]).
      rewrite E'. reflexivity.
    - destruct (innerv t k j0) as [[|v [|v' s]]|] eqn:E; try discriminate. intros Q. injection Q as <-.
      destruct (ds_inner _ _ _ _ Ds _ _ _ E) as (_ & _ & M). destruct (proj1 (M v) ltac:(left)) as (u & L & V).
      assert (L' : live ops D' (S k) j0 u) by (eapply live_same; eauto).
      destruct (innerv t' k j0) as [s'|] eqn:E'; [|exfalso; exact (ds_none _ _ _ _ Ds' _ _ E' u v L' V)].
      destruct (ds_inner _ _ _ _ Ds' _ _ _ E') as (Ne & ND & M').
      assert (All : forall w, w ∈ s' -> w = v).
      { intros w Hw. apply M' in Hw as (u' & Lu & Vu). apply elem_of_list_singleton, M. exists u'. split; [|exact Vu].
        eapply live_same; [|exact Lu]. intros y By. symmetry. apply H, By. }
      destruct s' as [|a [|b s']]; [contradiction|rewrite (All a) by left; reflexivity|]. exfalso.
      assert (a = b) as -> by (rewrite (All a), (All b); [reflexivity|right; left|left]). apply NoDup_cons in ND as [ND _]. apply ND. left. }
  destruct (nkey t k0 j0) as [p|] eqn:E; [symmetry; eapply Half; [exact Ds|exact Ds'|exact H0|exact E]|].
  destruct (nkey t' k0 j0) as [p|] eqn:E'; [|reflexivity]. rewrite <- E. eapply Half; [exact Ds'|exact Ds| |exact E']. intros y By. symmetry. apply H0, By.
Qed.

(** ** Additions *)
Lemma elem_of_adds D x : x ∈ adds ops D <-> x ∈ D /\ exists o, ops !! x = Some o /\ is_add (so_op o) = true.
Proof.
  unfold adds, adds_b. rewrite elem_of_filter. destruct (ops !! x) as [o|]; split.
  - intros [A B]. eauto.
  - intros [B (o' & Q & A)]. injection Q as <-. auto.
  - intros [A _]. discriminate.
  - intros [_ (o' & Q & _)]. discriminate.
Qed.
Lemma adds_mono D D' : D ⊆ D' -> size (adds ops D) <= size (adds ops D').
Proof. intros S. apply subseteq_size. intros x Hx. apply elem_of_adds in Hx as [A B]. apply elem_of_adds. auto. Qed.

Context (AT : changes_in_turn ops) (OW : one_writer ops) (FK : fresh_keys ops).

Lemma is_add_inv op : is_add op = true -> exists id pk i ps qs, op = CAdd id pk i ps qs.
Proof. destruct op; try discriminate. eauto 10. Qed.

(** Everything known when a change of members is made precedes it. *)
Lemma all_before_change D a o : closed D -> a ∉ D -> ops !! a = Some o -> is_update (so_op o) = false -> forall x, x ∈ D -> bef x a.
Proof.
  intros C N E A x Hx. destruct (AT a o x E A) as [-> |[H|H]]; [apply C, Hx|contradiction|exact H|]. exfalso. apply N. eapply closed_bef; eauto.
Qed.

Lemma past_is D a D0 : closed D -> (forall x, x ∈ D -> bef x a) -> (forall p, named ops p a -> p ∈ D) -> past ops a D0 -> D0 = D.
Proof.
  intros C All Pr P. apply set_eq. intros x. rewrite (P x). split; [|apply All]. intros B. apply tc_last in B as [B|(z & B & Q)]; [auto|]. eapply closed_bef; eauto.
Qed.
Lemma past_sub D a D0 : closed D -> (forall p, named ops p a -> p ∈ D) -> past ops a D0 -> D0 ⊆ D.
Proof. intros C Pr P x Hx. apply P in Hx. apply tc_last in Hx as [B|(z & B & Q)]; [auto|]. eapply closed_bef; eauto. Qed.

Lemma live_other D x k j a : ~ beneath ops a k j -> live ops (D ∪ {[ a ]}) k j x <-> live ops D k j x.
Proof.
  intros N. split; apply live_same; intros y By; rewrite elem_of_union, elem_of_singleton; split; try tauto; intros [H| ->]; try exact H; contradiction.
Qed.

Lemma next_le D t h : describes ops D t h -> 1 <= t_next t <= 2 ^ h.
Proof.
  intros Ds. destruct (ds_top _ _ _ _ Ds) as (id & i & A & ->). apply (ds_ids _ _ _ _ Ds) in A as (a & o & pk & ps & qs & Ha & E & Eo & _).
  pose proof (proj1 (ds_tall _ _ _ _ Ds) _ _ _ _ _ _ _ Ha E Eo). lia.
Qed.
Lemma some_op D t h : describes ops D t h -> D <> ∅.
Proof.
  intros Ds ->. destruct (ds_top _ _ _ _ Ds) as (id & i & A & _). apply (ds_ids _ _ _ _ Ds) in A as (a & _ & _ & _ & _ & Ha & _). set_solver.
Qed.
Lemma live_top D a k j : closed D -> a ∉ D -> (forall x, x ∈ D -> bef x a) -> beneath ops a k j -> forall x, live ops (D ∪ {[ a ]}) k j x <-> x = a.
Proof.
  intros C N All Ba x. split.
  - intros [Hx Bx Lx]. apply elem_of_union in Hx as [Hx|Hx]; [|apply elem_of_singleton in Hx; exact Hx]. exfalso. apply (Lx a); [set_solver|exact Ba|apply All, Hx].
  - intros ->. split; [set_solver|exact Ba|]. intros y Hy _ B. apply elem_of_union in Hy as [Hy|Hy].
    + apply N. eapply closed_bef; eauto.
    + apply elem_of_singleton in Hy as ->. exact (bef_irr _ B).
Qed.
Lemma no_version a o : ops !! a = Some o -> is_update (so_op o) = false -> forall k v, ~ version_of ops a k v.
Proof. intros E U k v (o' & id' & pc & ps' & n & E' & Q & _). rewrite E in E'. injection E' as <-. rewrite Q in U. discriminate. Qed.

Lemma describes_add D t h a o id pk i ps qs : describes ops D t h -> closed D -> a ∉ D -> ops !! a = Some o -> so_op o = CAdd id pk i ps qs ->
  (forall p, named ops p a -> p ∈ D) -> exists t' h', tree_apply t (so_op o) = Ok t' /\ describes ops (D ∪ {[ a ]}) t' h'.
Proof.
  intros Ds C N E Eo Pr. assert (NU : is_update (so_op o) = false) by (rewrite Eo; reflexivity). pose proof (all_before_change D a o C N E NU) as All.
  pose proof (CA _ _ E) as W. rewrite Eo in W. destruct W as (D0 & P & Hi). pose proof (past_is D a D0 C All Pr P) as Z. subst D0.
  assert (Hi' : i = t_next t /\ t_ids t !! id = None).
  { destruct Hi as [[Z _]|(t0 & h0 & Ds0 & Hi & Fr)]; [exfalso; exact (some_op _ _ _ Ds Z)|].
    assert (Sm : same_members ops D D) by (intros m om _ _; reflexivity). pose proof (same_ids _ _ _ _ _ _ _ Ds Ds0 Sm) as Q. rewrite Q in Fr. split; [|exact Fr].
    rewrite Hi. eapply next_of_ids; [exact Ds|exact Ds0|exact Q]. }
  clear Hi. destruct Hi' as [Hi Fr]. pose proof (next_le _ _ _ Ds) as [T1 T2]. pose proof (live_top D a) as LT. destruct Ds as [S Ids St Lo To Cn Ta Lf In No].
  destruct (push_leaf_spec t h id (SKey pk) S T2) as (t' & i' & h' & Ep & Hh & [As Ai Al An Aids Aleaf Ainner]). rewrite Eo. cbn [tree_apply]. rewrite Ep. cbn [rbind].
  exists t', h'. split; [reflexivity|]. rewrite <- Ai in Hi. subst i'.
  pose proof (push_leaf_height t h id (SKey pk) t' i h' S T1 T2 Ep As) as Ht.
  assert (Ba : forall k j, beneath ops a k j <-> j = anc i k).
  { intros k j. split; [intros (i' & (o' & E' & Q) & <-); rewrite E in E'; injection E' as <-; rewrite Eo in Q; subst i'; reflexivity|]. intros ->. exists i. split; [|reflexivity]. exists o. rewrite Eo. auto. }
  assert (Lv : forall k x, live ops (D ∪ {[ a ]}) k (anc i k) x <-> x = a) by (intros k x; apply LT; auto; apply Ba; reflexivity).
  pose proof (no_version a o E NU) as NV.
  assert (Out : forall id' j, t_ids t !! id' = Some j -> j <> i) by (intros id' j Q Z; apply Lo in Q; lia).
  constructor.
  - exact As.
  - intros id' i'. rewrite Aids, lookup_insert_Some, Ids. split.
    + intros [[<- <-]|[Nid H]].
      * exists a, o, pk, ps, qs. split; [set_solver|]. split; [exact E|]. split; [exact Eo|]. intros r o' j ks ps' Hr Er Eor. apply elem_of_union in Hr as [Hr|Hr]; [apply All, Hr|].
        apply elem_of_singleton in Hr as ->. rewrite E in Er. injection Er as <-. congruence.
      * destruct H as (b & ob & pkb & psb & qsb & Hb & Eb & Q & R). exists b, ob, pkb, psb, qsb. split; [set_solver|]. split; [exact Eb|]. split; [exact Q|].
        intros r o' j ks ps' Hr Er Eor. apply elem_of_union in Hr as [Hr|Hr]; [eapply R; eauto|]. apply elem_of_singleton in Hr as ->. rewrite E in Er. injection Er as <-. congruence.
    + intros (b & ob & pkb & psb & qsb & Hb & Eb & Q & R). apply elem_of_union in Hb as [Hb|Hb].
      * assert (Sb : seat ops (fun x => x ∈ D) id' i').
        { exists b, ob, pkb, psb, qsb. split; [exact Hb|]. split; [exact Eb|]. split; [exact Q|]. intros r o' j ks ps' Hr Er Eor. eapply R; [|exact Er|exact Eor]. set_solver. }
        right. split; [|exact Sb]. intros <-. apply Ids in Sb. congruence.
      * apply elem_of_singleton in Hb as ->. rewrite E in Eb. injection Eb as <-. rewrite Eo in Q. injection Q as <- _ <- _ _. auto.
  - intros id' i'. rewrite Aids, Aleaf, lookup_insert_Some, St. destruct (decide (i' = i)) as [-> |Ni].
    + split.
      * intros [[<- _]|[_ Q]]; [eauto|]. exfalso. apply St in Q. exact (Out _ _ Q eq_refl).
      * intros [nk Q]. injection Q as <- _. auto.
    + split; [intros [[_ Z]|[_ Q]]; [congruence|exact Q]|]. intros Q. right. split; [|exact Q]. intros <-. apply St in Q. congruence.
  - intros id' i'. rewrite Aids, lookup_insert_Some, An. intros [[_ <-]|[_ Q]]; [lia|]. apply Lo in Q. lia.
  - exists id, i. rewrite Aids, lookup_insert, An. split; [reflexivity|lia].
  - rewrite An, Ai. assert (Ea : adds ops (D ∪ {[ a ]}) = adds ops D ∪ {[ a ]}).
    { apply set_eq. intros x. rewrite elem_of_union, !elem_of_adds, elem_of_union, elem_of_singleton. split; [tauto|]. intros [|Z]; [tauto|]. subst x.
      split; [auto|]. exists o. rewrite Eo. auto. }
    rewrite Ea, size_union, size_singleton; [lia|]. intros x Hx Z. apply elem_of_singleton in Z as ->. apply elem_of_adds in Hx. tauto.
  - destruct Ta as (A1 & A2 & A3). split; [|split; [lia|]].
    + intros b ob idb pkb ib psb qsb Hb Eb Q. apply elem_of_union in Hb as [Hb|Hb].
      * pose proof (A1 _ _ _ _ _ _ _ Hb Eb Q). pose proof (pow2_mono _ _ Hh). lia.
      * apply elem_of_singleton in Hb as ->. rewrite E in Eb. injection Eb as <-. rewrite Eo in Q. injection Q as _ _ <- _ _. exact Al.
    + destruct Ht as [[H1 ->]|[H1 ->]].
      * destruct A3 as [A3|(b & ob & idb & pkb & ib & psb & qsb & Hb & Q)]; [auto|]. right. exists b, ob, idb, pkb, ib, psb, qsb. split; [set_solver|exact Q].
      * right. exists a, o, id, pk, i, ps, qs. split; [set_solver|]. split; [exact E|]. split; [exact Eo|]. replace (Datatypes.S h - 1) with h by lia. lia.
  - intros i' id' nk. rewrite Aleaf. destruct (decide (i' = i)) as [-> |Ni].
    + assert (L0 : forall x, live ops (D ∪ {[ a ]}) 0 i x <-> x = a) by (intros x; rewrite <- (Lv 0 x), anc_0; reflexivity). split.
      * intros Q. injection Q as <- <-. exists a, pk. split; [apply L0; reflexivity|]. split; [|reflexivity]. exists o. split; [exact E|]. left. eauto.
      * intros (x & pk' & L & (o' & E' & G) & ->). apply L0 in L as ->. rewrite E in E'. injection E' as <-. rewrite Eo in G.
        destruct G as [(? & ? & ? & G)|(? & ? & G & _)]; [injection G as <- <- _ _ _; reflexivity|discriminate].
    + assert (NB : ~ beneath ops a 0 i') by (rewrite Ba, anc_0; auto). rewrite Lf. split; intros (x & pk' & L & G); exists x, pk'; (split; [|exact G]); apply (live_other D x 0 i' a NB), L.
  - intros k j s. rewrite Ainner. destruct (decide _) as [Q|Q]; [discriminate|]. intros Es. destruct (In _ _ _ Es) as (A & B & M). split; [exact A|]. split; [exact B|].
    intros v. rewrite M. assert (NB : ~ beneath ops a (Datatypes.S k) j).
    { rewrite Ba. intros Z. apply Q. split; [|exact Z]. destruct (innerv_range _ _ _ _ _ S Es) as [Hk _]. lia. }
    split; intros (u & L & V); exists u; (split; [|exact V]); apply (live_other D u _ j a NB), L.
  - intros k j. rewrite Ainner. intros Es u v L V. destruct (decide (j = anc i (Datatypes.S k))) as [-> |Nj].
    + apply Lv in L as ->. exact (NV _ _ V).
    + rewrite decide_False in Es by tauto. apply (No _ _ Es u v); [|exact V]. apply (live_other D u _ j a); [rewrite Ba; exact Nj|exact L].
Qed.

(** ** Removals *)
Lemma describes_wfk D t h : describes ops D t h -> wfk t.
Proof.
  intros Ds. split.
  - intros i [id nk] E. apply (ds_leaf _ _ _ _ Ds) in E as (x & pk & _ & _ & ->). cbn. eauto.
  - intros k j E. apply (ds_inner _ _ _ _ Ds) in E as [N _]. contradiction.
Qed.

Lemma describes_remove D t h r o id i ks ps : describes ops D t h -> closed D -> r ∉ D -> ops !! r = Some o -> so_op o = CRemove id i ks ps ->
  (forall p, named ops p r -> p ∈ D) -> exists t', tree_apply t (so_op o) = Ok t' /\ describes ops (D ∪ {[ r ]}) t' h.
Proof.
  intros Ds C N E Eo Pr. assert (NU : is_update (so_op o) = false) by (rewrite Eo; reflexivity). pose proof (all_before_change D r o C N E NU) as All.
  pose proof (CA _ _ E) as W. rewrite Eo in W. destruct W as (D0 & t0 & h0 & P & Ds0 & Ei & Mc). pose proof (past_is D r D0 C All Pr P) as Z. subst D0.
  assert (Sm : same_members ops D D) by (intros m om _ _; reflexivity). pose proof (same_ids _ _ _ _ _ _ _ Ds Ds0 Sm) as Eids. clear Sm.
  pose proof (touches_remove r o id i ks ps D t h) as TR. specialize (fun i' => TR i' E Eo P Ds).
  unfold member_count in Mc. rewrite Eids in Ei, Mc. clear t0 h0 Ds0 Eids.
  pose proof (next_le _ _ _ Ds) as [T1 T2]. pose proof (live_top D r) as LT. pose proof (describes_wfk _ _ _ Ds) as WF.
  pose proof Ds as [S Ids St Lo To Cn Ta Lf In No].
  destruct (remove_id_wf t h id i S WF T2 St Lo Ei Mc) as (t' & m & ks' & Er & [Rs _ Rn Rl Rlast Rleaf Rgone Rids Rmono Rblank Rkeep]).
  rewrite Eo. cbn [tree_apply]. rewrite Er. cbn [rbind]. exists t'. split; [reflexivity|].
  assert (One : forall id' j, leafv t i = Some (LeafNode id' j) -> id' = id).
  { intros id' nk' Q. destruct (proj1 (St id i) Ei) as [nk Q']. congruence. }
  assert (Nm : m <> i) by (intros Z; subst m; rewrite Rleaf, decide_True in Rlast by reflexivity; destruct Rlast; discriminate).
  (* the leaves whose paths are blanked *)
  assert (TR' : forall i', touches ops r i' <-> i' = i \/ m < i' < t_next t).
  { intros i'. rewrite TR. pose proof (Lo _ _ Ei) as Li. destruct To as (idt & it & Eit & Ent). split.
    - intros [H|[H1 H2]]; [auto|]. right. split; [|lia]. destruct (Nat.lt_ge_cases m i') as [L|L]; [exact L|exfalso].
      rewrite Rleaf, decide_False in Rlast by exact Nm. destruct Rlast as [[idm nkm] Em]. assert (Qm : t_ids t !! idm = Some m) by (apply St; eauto).
      assert (idm = id) by (apply (H2 _ _ Qm); lia). subst idm. rewrite Ei in Qm. congruence.
    - intros [H|H]; [auto|]. destruct (decide (i' = i)) as [|Ni]; [auto|]. right. split.
      + destruct (Nat.lt_ge_cases i' i) as [|G]; [assumption|exfalso]. assert (Q : leafv t' it = None) by (apply Rgone; lia).
        rewrite Rleaf in Q. destruct (decide (it = i)) as [Z|Z]; [lia|]. apply St in Eit as [nk Eit]. congruence.
      + intros id' j Ej L. pose proof (Lo _ _ Ej) as Lj. assert (Q : leafv t' j = None) by (apply Rgone; lia).
        rewrite Rleaf in Q. apply St in Ej as [nk Ej]. destruct (decide (j = i)) as [Z|Z]; [subst j; eapply One; exact Ej|congruence]. }
  assert (Lv : forall k j, beneath ops r k j -> forall x, live ops (D ∪ {[ r ]}) k j x <-> x = r) by (intros k j B; apply LT; auto).
  pose proof (no_version r o E NU) as NV.
  assert (NG : forall id' pk, ~ gives ops r id' pk).
  { intros id' pk (o' & E' & [(? & ? & ? & Q)|(? & ? & Q & _)]); rewrite E in E'; injection E' as <-; congruence. }
  assert (Sf : forall id' i', t_ids t' !! id' = Some i' <-> exists nk, leafv t' i' = Some (LeafNode id' nk)).
  { intros id' i'. rewrite Rids, lookup_delete_Some, Rleaf, St. destruct (decide (i' = i)) as [-> |Ni].
    - split; [|intros [nk Q]; discriminate]. intros [Nid [nk Q]]. apply One in Q. congruence.
    - split; [tauto|]. intros Q. split; [|exact Q]. intros <-. apply St in Q. congruence. }
  constructor.
  - exact Rs.
  - intros id' i'. rewrite Rids, lookup_delete_Some, Ids. split.
    + intros [Nid (b & ob & pkb & psb & qsb & Hb & Eb & Q & R)]. exists b, ob, pkb, psb, qsb. split; [set_solver|]. split; [exact Eb|]. split; [exact Q|].
      intros x o' j ks0 ps' Hx Ex Eox. apply elem_of_union in Hx as [Hx|Hx]; [eapply R; eauto|]. apply elem_of_singleton in Hx as ->. rewrite E in Ex. injection Ex as <-. congruence.
    + intros (b & ob & pkb & psb & qsb & Hb & Eb & Q & R). apply elem_of_union in Hb as [Hb|Hb].
      2:{ exfalso. apply elem_of_singleton in Hb as ->. rewrite E in Eb. injection Eb as <-. congruence. }
      split.
      * intros Z. subst id'. assert (B : bef r b) by (eapply R; [|exact E|exact Eo]; set_solver). apply N. eapply closed_bef; eauto.
      * exists b, ob, pkb, psb, qsb. split; [exact Hb|]. split; [exact Eb|]. split; [exact Q|]. intros x o' j ks0 ps' Hx Ex Eox. eapply R; [|exact Ex|exact Eox]. set_solver.
  - exact Sf.
  - intros id' i' Q. pose proof Q as Q'. rewrite Rids in Q'. apply lookup_delete_Some in Q' as [_ Q']. apply Lo in Q'. apply Sf in Q as [nk Q]. rewrite Rn.
    destruct (Nat.lt_ge_cases m i') as [L|L]; [|lia]. rewrite (Rgone i') in Q by lia. discriminate.
  - destruct Rlast as [[idm nkm] Em]. exists idm, m. split; [apply Sf; eauto|exact Rn].
  - rewrite Rn. transitivity (t_next t); [lia|]. etransitivity; [exact Cn|]. apply adds_mono. set_solver.
  - destruct Ta as (A1 & A2 & A3). split; [|split; [exact A2|]].
    + intros b ob idb pkb ib psb qsb Hb Eb Q. apply elem_of_union in Hb as [Hb|Hb]; [eapply A1; eauto|]. apply elem_of_singleton in Hb as ->. rewrite E in Eb. injection Eb as <-. congruence.
    + destruct A3 as [A3|(b & ob & idb & pkb & ib & psb & qsb & Hb & Q)]; [auto|]. right. exists b, ob, idb, pkb, ib, psb, qsb. split; [set_solver|exact Q].
  - intros i' id' nk. destruct (beneath_dec r 0 i') as [B|NB].
    + assert (leafv t' i' = None) as ->.
      { destruct B as (i2 & Ht & B). rewrite anc_0 in B. subst i2. apply TR' in Ht as [-> |H]; [rewrite Rleaf, decide_True by reflexivity; reflexivity|apply Rgone, H]. }
      split; [discriminate|]. intros (x & pk' & L & G & _). apply (Lv _ _ B) in L as ->. exfalso. exact (NG _ _ G).
    + rewrite Rleaf, decide_False.
      2:{ intros ->. apply NB. exists i. rewrite anc_0. split; [apply TR'; auto|reflexivity]. }
      rewrite Lf. split; intros (x & pk' & L & G); exists x, pk'; (split; [|exact G]); apply (live_other D x 0 i' r NB), L.
  - intros k j s Es. destruct (beneath_dec r (Datatypes.S k) j) as [B|NB].
    + exfalso. destruct B as (i2 & Ht & <-). apply TR' in Ht. destruct (innerv_range _ _ _ _ _ Rs Es) as [Hk _]. rewrite (Rblank k i2 Ht Hk) in Es. discriminate.
    + rewrite Rkeep in Es by (intros i2 Ht ->; apply NB; exists i2; split; [apply TR', Ht|reflexivity]).
      destruct (In _ _ _ Es) as (A & B & M). split; [exact A|]. split; [exact B|]. intros v. rewrite M.
      split; intros (u & L & V); exists u; (split; [|exact V]); apply (live_other D u _ j r NB), L.
  - intros k j Es u v L V. destruct (beneath_dec r (Datatypes.S k) j) as [B|NB].
    + apply (Lv _ _ B) in L as ->. exact (NV _ _ V).
    + rewrite Rkeep in Es by (intros i2 Ht ->; apply NB; exists i2; split; [apply TR', Ht|reflexivity]).
      apply (No _ _ Es u v); [|exact V]. apply (live_other D u _ j r NB), L.
Qed.

(** ** Updates *)
Definition made_by (x : digest) (id : member_id) (D0 : gset digest) (t0 : tree) (h0 i : nat) (p0 pk : share_key) (vs : list version) : Prop :=
  exists rng rng', past ops x D0 /\ describes ops D0 t0 h0 /\ t_ids t0 !! id = Some i /\ leafv t0 i = Some (LeafNode id (SKey p0)) /\
      enc_versions t0 h0 0 i pk rng = Some (vs, rng').
Definition the_path (id : member_id) (t0 : tree) (h0 i : nat) (p0 pk : share_key) (vs : list version) : path_change :=
  PathChange id i (SKey pk) (path_of 0 i vs) ([p0] ++ concat (map (fun n => ikeys t0 n.1 n.2) (above 0 i h0))).

Lemma update_inv x o id pc ps : ops !! x = Some o -> so_op o = CUpdate id pc ps ->
  exists D0 t0 h0 i p0 pk vs, made_by x id D0 t0 h0 i p0 pk vs /\ pc = the_path id t0 h0 i p0 pk vs.
Proof.
  intros E Eo. pose proof (CA _ _ E) as W. rewrite Eo in W. destruct W as (D0 & t0 & h0 & i & p0 & pk & vs & rng & rng' & A & B & C & D & F & G).
  exists D0, t0, h0, i, p0, pk, vs. split; [exists rng, rng'; auto 6|exact G].
Qed.

Lemma version_at x o id pc ps k v D0 t0 h0 i p0 pk vs : ops !! x = Some o -> so_op o = CUpdate id pc ps -> pc = the_path id t0 h0 i p0 pk vs ->
  made_by x id D0 t0 h0 i p0 pk vs -> version_of ops x k v <-> vs !! k = Some v.
Proof.
  intros E Eo -> _. split.
  - intros (o' & id' & pc & ps' & n & E' & Q & L). rewrite E in E'. injection E' as <-. rewrite Eo in Q. injection Q as <- <- <-.
    apply path_of_lookup in L as (v' & L & _ & Z). injection Z as <-. exact L.
  - intros L. exists o, id, (the_path id t0 h0 i p0 pk vs), ps, (node k (anc i (S k))). split; [exact E|]. split; [exact Eo|]. apply path_of_lookup. eauto.
Qed.

Lemma version_key x k v : version_of ops x k v -> exists o, ops !! x = Some o /\ v_pk v ∈ inner_keys (so_op o).
Proof.
  intros (o & id & pc & ps & n & E & Eo & L). exists o. split; [exact E|]. rewrite Eo. cbn [inner_keys].
  apply elem_of_list_In, in_concat. exists [v_pk v]. split; [|left; reflexivity]. apply in_map_iff. exists (n, [v]). split; [reflexivity|].
  apply elem_of_list_In. eapply elem_of_list_lookup_2; eauto.
Qed.
Lemma inner_op_keys op k : k ∈ inner_keys op -> k ∈ op_keys op.
Proof. destruct op; cbn [inner_keys op_keys]; intros H; [inversion H..|]. apply elem_of_app. right. exact H. Qed.
Lemma version_inj x y k k' v v' : version_of ops x k v -> version_of ops y k' v' -> v_pk v = v_pk v' -> x = y.
Proof.
  intros V V' Ek. apply version_key in V as (o & E & K). apply version_key in V' as (o' & E' & K'). rewrite Ek in K. apply inner_op_keys in K'. eapply FK; eauto.
Qed.
Lemma gives_op_key x id pk : gives ops x id pk -> exists o, ops !! x = Some o /\ pk ∈ op_keys (so_op o).
Proof.
  intros (o & E & H). exists o. split; [exact E|]. destruct H as [(i & ps & qs & ->)|(pc & ps & -> & _ & Q)]; cbn [op_keys]; [left|].
  rewrite Q. apply elem_of_app. left. left.
Qed.

(** Whoever made an update knew every change of members that does not follow it. *)
Lemma same_members_past D u o id pc ps D0 : closed D -> u ∉ D -> ops !! u = Some o -> so_op o = CUpdate id pc ps -> past ops u D0 -> D0 ⊆ D -> same_members ops D D0.
Proof.
  intros C N E Eo P Sub m om Em Um. split; [|apply Sub]. intros Hm. apply P. destruct (AT m om u Em Um) as [-> |[H|H]]; [eauto|contradiction|exfalso|exact H].
  apply N. eapply closed_bef; eauto.
Qed.
Lemma concurrent_members x y ox oy Dx Dy : ops !! x = Some ox -> ops !! y = Some oy -> is_update (so_op ox) = true -> is_update (so_op oy) = true ->
  past ops x Dx -> past ops y Dy -> ~ bef x y -> ~ bef y x -> same_members ops Dx Dy.
Proof.
  intros Ex Ey Ux Uy Px Py N N' m om Em Um. rewrite (Px m), (Py m). split; intros B.
  - destruct (AT m om y Em Um) as [H|[H|H]]; [eauto|subst y; congruence|exfalso; apply N'; eapply bef_trans; eauto|exact H].
  - destruct (AT m om x Em Um) as [H|[H|H]]; [eauto|subst x; congruence|exfalso; apply N; eapply bef_trans; eauto|exact H].
Qed.

Lemma leaf_before D u o id pc ps y i : closed D -> u ∉ D -> ops !! u = Some o -> so_op o = CUpdate id pc ps -> pc_leaf_idx pc = i ->
  y ∈ D -> beneath ops y 0 i -> bef y u.
Proof.
  intros C N E Eo Hi Hy (i' & (oy & Ey & Ht) & By). rewrite anc_0 in By. subst i'.
  assert (NU : ~ bef u y) by (intros B; apply N; eapply closed_bef; eauto).
  assert (Nq : y <> u) by (intros ->; contradiction).
  destruct (is_update (so_op oy)) eqn:Uy.
  2:{ destruct (AT y oy u Ey Uy) as [H|[H|H]]; [eauto|congruence|contradiction|exact H]. }
  destruct (bef_dec y u) as [B|NB]; [exact B|exfalso].
  destruct (so_op oy) as [idy pky iy psy qsy|idy iy ksy psy|idy pcy psy] eqn:Eoy; try discriminate.
  destruct (update_inv _ _ _ _ _ E Eo) as (D0 & t0 & h0 & i0 & p0 & pk & vs & M & Ep).
  destruct (update_inv _ _ _ _ _ Ey Eoy) as (Dy & ty & hy & iy & p0y & pky & vsy & My & Epy).
  destruct M as (rng & rng' & P & Ds & Ei & _). destruct My as (rngy & rngy' & Py & Dsy & Eiy & _).
  rewrite Ep in Hi. rewrite Epy in Ht. cbn in Hi, Ht. subst i i0.
  assert (Sm : same_members ops D0 Dy) by (eapply (concurrent_members u y); eauto; [rewrite Eo|rewrite Eoy]; reflexivity).
  rewrite (same_ids _ _ _ _ _ _ _ Ds Dsy Sm) in Eiy. apply (ds_seat _ _ _ _ Ds) in Ei as [nk Ei]. apply (ds_seat _ _ _ _ Ds) in Eiy as [nk' Eiy].
  rewrite Ei in Eiy. injection Eiy as <- _.
  destruct (OW y u oy o _ _ _ _ _ Ey E Eoy Eo) as [H|[H|H]]; [congruence|contradiction|contradiction].
Qed.

Lemma update_height D t h u o id pc ps D0 t0 h0 : describes ops D t h -> closed D -> u ∉ D -> ops !! u = Some o -> so_op o = CUpdate id pc ps -> past ops u D0 -> D0 ⊆ D ->
  describes ops D0 t0 h0 -> h0 = h.
Proof. intros Ds C N E Eo P Sub Ds0. eapply same_height; [exact Ds|exact Ds0|]. eapply same_members_past; eauto. Qed.

(** The keys that an update replaces are those of operations before it. *)
Lemma removed_spec u id D0 t0 h0 i p0 pk vs q : made_by u id D0 t0 h0 i p0 pk vs -> q ∈ pc_removed (the_path id t0 h0 i p0 pk vs) ->
  exists x ox, ops !! x = Some ox /\ q ∈ op_keys (so_op ox) /\ bef x u.
Proof.
  intros (rng & rng' & P & Ds & Ei & El & _) Hq. cbn [the_path pc_removed app] in Hq. apply elem_of_cons in Hq as [-> |Hq].
  - apply (ds_leaf _ _ _ _ Ds) in El as (x & pk' & L & G & Q). injection Q as <-. destruct (gives_op_key _ _ _ G) as (ox & Ex & K).
    exists x, ox. split; [exact Ex|]. split; [exact K|]. apply P, L.
  - apply elem_of_list_In, in_concat in Hq as (ks & Hks & Hq). apply in_map_iff in Hks as ([k j] & <- & _). apply elem_of_list_In in Hq. cbn [fst snd] in Hq.
    unfold ikeys in Hq. destruct (innerv t0 k j) as [s|] eqn:Es; [|inversion Hq]. apply elem_of_list_fmap in Hq as (v & -> & Hv).
    apply (ds_inner _ _ _ _ Ds _ _ _ Es) in Hv as (x & L & V). destruct (version_key _ _ _ V) as (ox & Ex & K). exists x, ox. split; [exact Ex|]. split; [apply inner_op_keys, K|]. apply P, L.
Qed.

Lemma describes_update_view D t h u o id ps D0 t0 h0 i p0 pk vs t' : describes ops D t h -> closed D -> u ∉ D -> ops !! u = Some o ->
  (forall p, named ops p u -> p ∈ D) -> so_op o = CUpdate id (the_path id t0 h0 i p0 pk vs) ps -> made_by u id D0 t0 h0 i p0 pk vs ->
  let removed := pc_removed (the_path id t0 h0 i p0 pk vs) in
  shape t' h -> t_next t' = t_next t -> t_ids t' = t_ids t ->
  (forall i', leafv t' i' = if decide (i' = i) then Some (LeafNode id (SKey pk)) else leafv t i') ->
  (forall k j, innerv t' k j = if decide (k < h /\ j = anc i (S k)) then (fun v => add_version (innerv t k j) v removed) <$> vs !! k else innerv t k j) ->
  describes ops (D ∪ {[ u ]}) t' h.
Proof.
  intros Ds C N E Pr Eo M removed Sh Nx Id Lf In. pose proof M as (rng & rng' & P & Ds0 & Ei & El & Ev).
  pose proof (past_sub D u D0 C Pr P) as Sub. pose proof (update_height D t h u o id _ ps D0 t0 h0 Ds C N E Eo P Sub Ds0) as ->.
  pose proof (enc_versions_length _ _ _ _ _ _ _ _ Ev) as Lvs.
  assert (Bu : forall k j, beneath ops u k j <-> j = anc i k).
  { intros k j. split; [intros (i' & (o' & E' & Ht) & <-); rewrite E in E'; injection E' as <-; rewrite Eo in Ht; cbn in Ht; subst i'; reflexivity|].
    intros ->. exists i. split; [|reflexivity]. exists o. rewrite Eo. auto. }
  assert (NU : forall y, y ∈ D -> ~ bef u y) by (intros y Hy B; apply N; eapply closed_bef; eauto).
  assert (Lu : forall k, live ops (D ∪ {[ u ]}) k (anc i k) u).
  { intros k. split; [set_solver|apply Bu; reflexivity|]. intros y Hy _. apply elem_of_union in Hy as [Hy|Hy]; [apply NU, Hy|].
    apply elem_of_singleton in Hy as ->. apply bef_irr. }
  assert (Lv : forall k x, live ops (D ∪ {[ u ]}) k (anc i k) x <-> x = u \/ (live ops D k (anc i k) x /\ ~ bef x u)).
  { intros k x. split.
    - intros [Hx Bx Lx]. apply elem_of_union in Hx as [Hx|Hx]; [|left; apply elem_of_singleton in Hx; exact Hx]. right. split.
      + split; [exact Hx|exact Bx|]. intros y Hy. apply Lx. set_solver.
      + apply Lx; [set_solver|apply Bu; reflexivity].
    - intros [-> |[[Hx Bx Lx] Nb]]; [apply Lu|]. split; [set_solver|exact Bx|]. intros y Hy By. apply elem_of_union in Hy as [Hy|Hy]; [apply Lx; assumption|].
      apply elem_of_singleton in Hy as ->. exact Nb. }
  assert (Vu : forall k v, version_of ops u k v <-> vs !! k = Some v) by (intros k v; eapply version_at; eauto).
  assert (Sm : forall m om, ops !! m = Some om -> is_update (so_op om) = false -> m ∈ D <-> m ∈ D ∪ {[ u ]}).
  { intros m om Em Um. rewrite elem_of_union, elem_of_singleton. split; [auto|]. intros [H| ->]; [exact H|]. rewrite E in Em. injection Em as <-. rewrite Eo in Um. discriminate. }
  constructor.
  - exact Sh.
  - intros id' i'. rewrite Id, (ds_ids _ _ _ _ Ds). apply seat_ext. exact Sm.
  - intros id' i'. rewrite Id, (ds_seat _ _ _ _ Ds), Lf. destruct (decide (i' = i)) as [-> |]; [|reflexivity].
    assert (El' : leafv t i = Some (LeafNode id (SKey p0)) \/ exists nk, leafv t i = Some (LeafNode id nk)).
    { right. apply (ds_seat _ _ _ _ Ds). rewrite <- (same_ids _ _ _ _ _ _ _ Ds Ds0 (same_members_past D u o id _ ps D0 C N E Eo P Sub)). exact Ei. }
    assert (El2 : exists nk, leafv t i = Some (LeafNode id nk)) by (destruct El' as [|]; eauto). destruct El2 as [nk2 El2]. rewrite El2.
    split; intros [nk Q]; injection Q as Q1 Q2; rewrite Q1; eauto.
  - intros id' i'. rewrite Id, Nx. apply Ds.
  - rewrite Id, Nx. apply Ds.
  - rewrite Nx. etransitivity; [apply (ds_count _ _ _ _ Ds)|]. apply adds_mono. set_solver.
  - destruct (ds_tall _ _ _ _ Ds) as (T1 & T2 & T3). split; [|split; [exact T2|]].
    + intros a oa ida pka ia psa qsa Ha Ea Q. apply elem_of_union in Ha as [Ha|Ha]; [eapply T1; eauto|]. apply elem_of_singleton in Ha as ->. rewrite E in Ea. injection Ea as <-. congruence.
    + destruct T3 as [T3|(a & oa & ida & pka & ia & psa & qsa & Ha & Q)]; [auto|]. right. exists a, oa, ida, pka, ia, psa, qsa. split; [set_solver|exact Q].
  - intros i' id' nk. rewrite Lf. destruct (decide (i' = i)) as [-> |Ni].
    + assert (L0 : forall x, live ops (D ∪ {[ u ]}) 0 i x <-> x = u).
      { intros x. pose proof (Lv 0 x) as Q. rewrite anc_0 in Q. rewrite Q. split; [|auto]. intros [H|[[Hx Bx Lx] Nb]]; [exact H|]. exfalso. apply Nb.
        eapply (leaf_before D u); [exact C|exact N|exact E|exact Eo|reflexivity|exact Hx|exact Bx]. }
      split.
      * intros Q. injection Q as <- <-. exists u, pk. split; [apply L0; reflexivity|]. split; [|reflexivity]. exists o. split; [exact E|]. right. eauto.
      * intros (x & pk' & L & (o' & E' & G) & ->). apply L0 in L as ->. rewrite E in E'. injection E' as <-. rewrite Eo in G.
        destruct G as [(? & ? & ? & G)|(? & ? & G & G1 & G2)]; [discriminate|]. injection G as <- <- <-. cbn in G1, G2. injection G2 as <-. reflexivity.
    + assert (NB : ~ beneath ops u 0 i') by (rewrite Bu, anc_0; auto). rewrite (ds_leaf _ _ _ _ Ds).
      split; intros (x & pk' & L & G); exists x, pk'; (split; [|exact G]); apply (live_other D x 0 i' u NB), L.
  - intros k j s. rewrite In. destruct (decide _) as [[Hk ->]|Q].
    + destruct (vs !! k) as [v|] eqn:Evk; [|discriminate]. cbn [fmap option_fmap option_map]. intros Z. injection Z as <-.
      assert (Cur : forall cur w, innerv t k (anc i (S k)) = Some cur -> w ∈ cur -> (v_pk w ∈ removed <-> exists x, live ops D (S k) (anc i (S k)) x /\ version_of ops x k w /\ bef x u)).
      { intros cur w Ec Hw. apply (ds_inner _ _ _ _ Ds _ _ _ Ec) in Hw as (x & L & V). split.
        - intros Hq. destruct (removed_spec _ _ _ _ _ _ _ _ _ _ M Hq) as (y & oy & Ey & Ky & By). destruct (version_key _ _ _ V) as (ox & Ex & Kx).
          assert (x = y) as -> by (eapply FK; eauto). eauto.
        - intros (y & Ly & Vy & By). unfold removed, the_path. cbn [pc_removed]. apply elem_of_app. right. apply elem_of_list_In, in_concat.
          exists (ikeys t0 k (anc i (S k))). split.
          + apply in_map_iff. exists (k, anc i (S k)). split; [reflexivity|]. unfold above. apply in_map_iff. exists k. split; [reflexivity|]. apply in_seq. lia.
          + apply elem_of_list_In. unfold ikeys.
            assert (L0 : live ops D0 (S k) (anc i (S k)) y).
            { split; [apply P, By|apply Ly|]. intros z Hz. apply Ly. apply Sub, Hz. }
            destruct (innerv t0 k (anc i (S k))) as [s0|] eqn:E0; [|exfalso; exact (ds_none _ _ _ _ Ds0 _ _ E0 y w L0 Vy)].
            apply elem_of_list_fmap. exists w. split; [reflexivity|]. apply (ds_inner _ _ _ _ Ds0 _ _ _ E0). eauto. }
      assert (Mem : forall w, w ∈ add_version (innerv t k (anc i (S k))) v removed <->
        w = v \/ exists x, live ops D (S k) (anc i (S k)) x /\ version_of ops x k w /\ ~ bef x u).
      { intros w. unfold add_version. destruct (innerv t k (anc i (S k))) as [cur|] eqn:Ec.
        - unfold store_merge, remove_keys_from. rewrite elem_of_app, elem_of_list_filter, elem_of_list_singleton. split.
          + intros [[Nr Hw]|Hw]; [right|left; exact Hw]. pose proof (Cur _ _ eq_refl Hw) as Q. apply (ds_inner _ _ _ _ Ds _ _ _ Ec) in Hw as (x & L & V).
            exists x. split; [exact L|]. split; [exact V|]. intros B. apply Nr, Q. eauto.
          + intros [Hw|(x & L & V & Nb)]; [auto|]. left. assert (Hw : w ∈ cur) by (apply (ds_inner _ _ _ _ Ds _ _ _ Ec); eauto). split; [|exact Hw].
            intros Hr. apply (Cur _ _ eq_refl Hw) in Hr as (y & _ & Vy & By). assert (x = y) as -> by (eapply version_inj; [exact V|exact Vy|reflexivity]). contradiction.
        - rewrite elem_of_list_singleton. split; [auto|]. intros [Hw|(x & L & V & _)]; [exact Hw|]. exfalso. exact (ds_none _ _ _ _ Ds _ _ Ec x w L V). }
      split; [|split].
      * intros Z. pose proof (proj2 (Mem v) (or_introl eq_refl)) as Q. rewrite Z in Q. inversion Q.
      * unfold add_version. destruct (innerv t k (anc i (S k))) as [cur|] eqn:Ec; [|apply NoDup_singleton]. unfold store_merge, remove_keys_from.
        apply NoDup_app. split; [apply NoDup_filter; apply (ds_inner _ _ _ _ Ds _ _ _ Ec)|]. split; [|apply NoDup_singleton].
        intros w Hw Z. apply elem_of_list_singleton in Z as ->. apply elem_of_list_filter in Hw as [_ Hw]. apply (ds_inner _ _ _ _ Ds _ _ _ Ec) in Hw as (x & L & V).
        assert (x = u) as -> by (eapply version_inj; [exact V|apply Vu; exact Evk|reflexivity]). apply N, L.
      * intros w. rewrite Mem. split.
        -- intros [-> |(x & L & V & Nb)]; [exists u; split; [apply Lu|apply Vu, Evk]|]. exists x. split; [apply Lv; auto|exact V].
        -- intros (x & L & V). apply Lv in L as [-> |[L Nb]]; [left; apply Vu in V; congruence|right; eauto].
    + intros Es. destruct (ds_inner _ _ _ _ Ds _ _ _ Es) as (A & B & Mm). split; [exact A|]. split; [exact B|]. intros w. rewrite Mm.
      assert (NB : ~ beneath ops u (S k) j).
      { rewrite Bu. intros Z. apply Q. split; [|exact Z]. destruct (innerv_range _ _ _ _ _ (ds_shape _ _ _ _ Ds) Es) as [Hk _]. lia. }
      split; intros (x & L & V); exists x; (split; [|exact V]); apply (live_other D x _ j u NB), L.
  - intros k j. rewrite In. destruct (decide _) as [[Hk ->]|Q].
    + destruct (lookup_lt_is_Some_2 vs k) as [v Ev']; [lia|]. rewrite Ev'. discriminate.
    + intros Es x v L V. destruct (decide (j = anc i (S k))) as [-> |Nj].
      * apply Lv in L as [-> |[L _]]; [|exact (ds_none _ _ _ _ Ds _ _ Es x v L V)]. apply Vu in V. apply Q. split; [|reflexivity]. apply lookup_lt_Some in V. lia.
      * apply (ds_none _ _ _ _ Ds _ _ Es x v); [|exact V]. apply (live_other D x _ j u); [rewrite Bu; exact Nj|exact L].
Qed.

Lemma leafv_lt t h i l : shape t h -> leafv t i = Some l -> i < 2 ^ h.
Proof.
  intros S E. rewrite <- (sh_leaves _ _ S). unfold leafv in E. destruct (t_leaves t !! i) eqn:Q; [|discriminate]. eapply lookup_lt_Some; eauto.
Qed.

Lemma describes_update D t h u o id pc ps : describes ops D t h -> closed D -> u ∉ D -> ops !! u = Some o -> so_op o = CUpdate id pc ps ->
  (forall p, named ops p u -> p ∈ D) -> exists t', tree_apply t (so_op o) = Ok t' /\ describes ops (D ∪ {[ u ]}) t' h.
Proof.
  intros Ds C N E Eo Pr. destruct (update_inv _ _ _ _ _ E Eo) as (D0 & t0 & h0 & i & p0 & pk & vs & M & ->). pose proof M as (rng & rng' & P & Ds0 & Ei & El & Ev).
  pose proof (past_sub D u D0 C Pr P) as Sub. pose proof (update_height D t h u o id _ ps D0 t0 h0 Ds C N E Eo P Sub Ds0) as ->.
  assert (Ei' : t_ids t !! id = Some i).
  { rewrite <- (same_ids _ _ _ _ _ _ _ Ds Ds0 (same_members_past D u o id _ ps D0 C N E Eo P Sub)). exact Ei. }
  assert (El' : leafv t i = Some (LeafNode id (SKey p0))).
  { apply (ds_leaf _ _ _ _ Ds). apply (ds_leaf _ _ _ _ Ds0) in El as (x & pk' & L & G). exists x, pk'. split; [|exact G]. eapply live_same; [|exact L].
    intros y By. split; [apply Sub|]. intros Hy. apply P. eapply (leaf_before D u); [exact C|exact N|exact E|exact Eo|reflexivity|exact Hy|exact By]. }
  rewrite Eo. cbn [tree_apply]. unfold the_path.
  destruct (apply_path_wf t h id i p0 pk vs ([p0] ++ concat (map (fun n => ikeys t0 n.1 n.2) (above 0 i h)))) as (t' & Ea & S' & Nx & Ids & Lf & In).
  - apply Ds.
  - exact Ei'.
  - eapply leafv_lt; [apply Ds|exact El'].
  - exact El'.
  - left.
  - eapply enc_versions_length; eauto.
  - exists t'. split; [exact Ea|]. eapply describes_update_view; eauto.
Qed.

(** What the maker of an update is left with. *)
Lemma describes_made u o id ps D0 t0 h0 i p0 pk vs : ops !! u = Some o -> so_op o = CUpdate id (the_path id t0 h0 i p0 pk vs) ps ->
  made_by u id D0 t0 h0 i p0 pk vs -> updated t0 (upd_tree t0 id pk i vs) id pk i h0 vs /\ describes ops (D0 ∪ {[ u ]}) (upd_tree t0 id pk i vs) h0.
Proof.
  intros E Eo M. pose proof M as (rng & rng' & P & Ds0 & Ei & El & Ev). pose proof (enc_versions_length _ _ _ _ _ _ _ _ Ev) as Lvs.
  assert (U : updated t0 (upd_tree t0 id pk i vs) id pk i h0 vs).
  { apply upd_tree_updated_wf; [apply Ds0|exact Ei|eapply leafv_lt; [apply Ds0|exact El]|exact Lvs]. }
  split; [exact U|]. eapply (describes_update_view D0 t0 h0 u o id ps D0 t0 h0); try eassumption.
  - eapply past_closed; eauto.
  - intros H. apply P in H. exact (bef_irr _ H).
  - intros p Np. apply P, tc_once, Np.
  - apply U.
  - apply U.
  - apply U.
  - apply U.
  - intros k j. rewrite (up_inner _ _ _ _ _ _ _ U). destruct (decide _) as [[Hk ->]|]; [|reflexivity]. destruct (vs !! k) as [v|]; [|reflexivity].
    cbn [fmap option_fmap option_map]. f_equal. unfold add_version. destruct (innerv t0 k (anc i (S k))) as [cur|] eqn:Ec; [|reflexivity].
    unfold store_merge. match goal with |- _ = ?x ++ _ => replace x with (@nil version); [reflexivity|] end.
    symmetry. unfold remove_keys_from. apply filter_none. intros w Hw Nr. apply Nr. unfold the_path. cbn [pc_removed]. apply elem_of_app. right.
    apply elem_of_list_In, in_concat. exists (ikeys t0 k (anc i (S k))). split.
    + apply in_map_iff. exists (k, anc i (S k)). split; [reflexivity|]. unfold above. apply in_map_iff. exists k. split; [reflexivity|]. apply in_seq. lia.
    + apply elem_of_list_In. unfold ikeys. rewrite Ec. apply elem_of_list_fmap. eauto.
Qed.

(** ** One key at a node means that somebody overlooked the whole subtree *)
Lemma alone_covers D t h k j v : describes ops D t h -> closed D -> innerv t k j = Some [v] ->
  exists u, live ops D (S k) j u /\ version_of ops u k v /\ forall y, y ∈ D -> beneath ops y (S k) j -> y = u \/ bef y u.
Proof.
  intros Ds C E. destruct (ds_inner _ _ _ _ Ds _ _ _ E) as (_ & _ & M). destruct (proj1 (M v) ltac:(left)) as (u & L & V). exists u. split; [exact L|]. split; [exact V|].
  intros y Hy By. destruct (live_exists D (S k) j y Hy By) as (m & Lm & Hm).
  enough (m = u) as -> by exact Hm.
  pose proof V as (o & id & pc & ps & n & Eu & Eo & Ep).
  destruct (bef_dec m u) as [B|Nmu]; [exfalso; exact (lv_last _ _ _ _ _ Lm u (lv_in _ _ _ _ _ L) (lv_beneath _ _ _ _ _ L) B)|].
  destruct (bef_dec u m) as [B|Num]; [exfalso; exact (lv_last _ _ _ _ _ L m (lv_in _ _ _ _ _ Lm) (lv_beneath _ _ _ _ _ Lm) B)|].
  destruct (proj1 C m (lv_in _ _ _ _ _ Lm)) as [om Em].
  destruct (is_update (so_op om)) eqn:Um.
  2:{ destruct (AT m om u Em Um) as [H|[H|H]]; [eauto|auto|contradiction|contradiction]. }
  destruct (so_op om) as [idm pkm im psm qsm|idm im ksm psm|idm pcm psm] eqn:Eom; try discriminate.
  - destruct (update_inv _ _ _ _ _ Eu Eo) as (D0 & t0 & h0 & i & p0 & pk & vs & Mu & Epc). destruct (update_inv _ _ _ _ _ Em Eom) as (Dm & tm & hm & im & p0m & pkm & vsm & Mm & Epcm).
    pose proof Mu as (rng & rng' & P & Ds0 & _ & _ & Ev). pose proof Mm as (rngm & rngm' & Pm & Dsm & _ & _ & Evm).
    assert (Hh : hm = h0).
    { eapply same_height; [exact Ds0|exact Dsm|]. eapply (concurrent_members u m); [exact Eu|exact Em|rewrite Eo; reflexivity|rewrite Eom; reflexivity|exact P|exact Pm|exact Num|exact Nmu]. }
    assert (Hk : k < h0).
    { rewrite <- (enc_versions_length _ _ _ _ _ _ _ _ Ev). apply (version_at _ _ _ _ _ _ _ _ _ _ _ _ _ _ Eu Eo Epc Mu) in V. eapply lookup_lt_Some; eauto. }
    destruct (lookup_lt_is_Some_2 vsm k) as [v' Ev']; [rewrite (enc_versions_length _ _ _ _ _ _ _ _ Evm); lia|].
    apply (version_at _ _ _ _ _ _ _ _ _ _ _ _ _ _ Em Eom Epcm Mm) in Ev'.
    assert (Q : v' ∈ [v]) by (apply M; eauto). apply elem_of_list_singleton in Q as ->. eapply version_inj; eauto.
Qed.

Theorem describes_keyed D t h : describes ops D t h -> closed D -> keyed t.
Proof.
  intros Ds C. split; [apply (describes_wfk _ _ _ Ds)|]. intros k j v E. destruct (alone_covers D t h k j v Ds C E) as (u & L & V & All).
  pose proof V as (o & id & pc & ps & n & Eu & Eo & Ep).
  destruct (update_inv _ _ _ _ _ Eu Eo) as (D0 & t0 & h0 & i & p0 & pk & vs & M & Epc). subst pc.
  destruct (describes_made _ _ _ _ _ _ _ _ _ _ _ Eu Eo M) as [U Ds']. pose proof M as (rng & rng' & P & Ds0 & _ & _ & Ev).
  apply (version_at _ _ _ _ _ _ _ _ _ _ _ _ _ _ Eu Eo eq_refl M) in V.
  destruct (updated_sealed _ _ _ _ _ _ _ _ _ _ _ U Ev V) as (eph & Sl & _).
  assert (Ej : anc i (S k) = j). { destruct (lv_beneath _ _ _ _ _ L) as (i' & (o' & E' & Ht) & <-). rewrite Eu in E'. injection E' as <-. rewrite Eo in Ht. cbn in Ht. subst i'. reflexivity. }
  assert (Same : forall y, beneath ops y (S k) j -> y ∈ D0 ∪ {[ u ]} <-> y ∈ D).
  { intros y By. rewrite elem_of_union, elem_of_singleton. split.
    - intros [Hy| ->]; [|apply L]. apply P in Hy. eapply closed_bef; [exact C|exact Hy|apply L].
    - intros Hy. destruct (All y Hy By) as [-> |H]; [auto|left; apply P, H]. }
  assert (B1 : forall c, c / 2 = j -> below k c (S k) j).
  { intros c <-. split; [lia|]. replace (S k - k) with 1 by lia. reflexivity. }
  exists (anc i k), eph. split; [rewrite <- anc_S'; exact Ej|]. eapply sealed_ext; [| |exact Sl].
  - symmetry. eapply same_nkey; [exact Ds'|exact Ds|exact Same|]. apply B1. rewrite <- anc_S'. exact Ej.
  - intros k1 j1 B. symmetry. eapply same_nkey; [exact Ds'|exact Ds|exact Same|]. eapply below_trans; [exact B|]. apply B1. rewrite sib_div2, <- anc_S'. exact Ej.
Qed.

(** ** The last word *)
Lemma anc_root i h : i < 2 ^ h -> anc i h = 0.
Proof. intros H. unfold anc. apply Nat.div_small, H. Qed.

Lemma seat_index D t h id i : describes ops D t h -> t_ids t !! id = Some i -> i < 2 ^ h.
Proof. intros Ds E. apply (ds_ids _ _ _ _ Ds) in E as (a & o & pk & ps & qs & Ha & Ea & Eo & _). eapply (proj1 (ds_tall _ _ _ _ Ds)); eauto. Qed.
Lemma past_height D t h x D0 t0 h0 : describes ops D t h -> closed D -> x ∈ D -> past ops x D0 -> describes ops D0 t0 h0 -> h0 <= h.
Proof.
  intros Ds C Hx P Ds0. eapply tall_mono; [apply Ds0|apply Ds|]. intros a o Ha _ _. apply P in Ha. eapply closed_bef; eauto.
Qed.
Lemma touch_index D t h x i' : describes ops D t h -> closed D -> x ∈ D -> touches ops x i' -> i' < 2 ^ h.
Proof.
  intros Ds C Hx (o & E & Ht). destruct (so_op o) as [id pk i ps qs|id i ks ps|id pc ps] eqn:Eo.
  - subst i'. eapply (proj1 (ds_tall _ _ _ _ Ds)); eauto.
  - pose proof (CA _ _ E) as W. rewrite Eo in W. destruct W as (D0 & t0 & h0 & P & Ds0 & Ei & _). pose proof (seat_index _ _ _ _ _ Ds0 Ei) as Hi.
    pose proof (pow2_mono _ _ (past_height _ _ _ _ _ _ _ Ds C Hx P Ds0)). lia.
  - destruct (update_inv _ _ _ _ _ E Eo) as (D0 & t0 & h0 & i & p0 & pk & vs & (rng & rng' & P & Ds0 & Ei & El & Ev) & ->). cbn in Ht. subst i'.
    pose proof (seat_index _ _ _ _ _ Ds0 Ei) as Hi. pose proof (pow2_mono _ _ (past_height _ _ _ _ _ _ _ Ds C Hx P Ds0)). lia.
Qed.

Theorem settled_root D t h u o id pc ps : describes ops D t h -> closed D -> u ∈ D -> ops !! u = Some o -> so_op o = CUpdate id pc ps ->
  (forall y, y ∈ D -> y = u \/ bef y u) -> exists v, version_of ops u (h - 1) v /\ nkey t h 0 = Some (v_pk v) /\ length (pc_path pc) = h.
Proof.
  intros Ds C Hu E Eo All. pose proof (sh_h _ _ (ds_shape _ _ _ _ Ds)) as H1.
  destruct (update_inv _ _ _ _ _ E Eo) as (D0 & t0 & h0 & i & p0 & pk & vs & M & Epc). pose proof M as (rng & rng' & P & Ds0 & _ & _ & Ev).
  assert (h0 = h) as ->.
  { eapply same_height; [exact Ds|exact Ds0|]. intros m om Em Um. rewrite (P m). split.
    - intros Hm. destruct (All m Hm) as [-> |H]; [|exact H]. rewrite E in Em. injection Em as <-. rewrite Eo in Um. discriminate.
    - intros H. eapply closed_bef; eauto. }
  destruct (lookup_lt_is_Some_2 vs (h - 1)) as [v Ev']; [rewrite (enc_versions_length _ _ _ _ _ _ _ _ Ev); lia|].
  assert (V : version_of ops u (h - 1) v) by (eapply version_at; eauto). exists v. split; [exact V|].
  split; [|rewrite Epc; cbn [the_path pc_path]; unfold path_of; rewrite zip_with_length_r_eq by (symmetry; apply above_length); exact (enc_versions_length _ _ _ _ _ _ _ _ Ev)].
  assert (Lu : live ops D (S (h - 1)) 0 u).
  { split; [exact Hu| |].
    - exists (pc_leaf_idx pc). assert (Ht : touches ops u (pc_leaf_idx pc)) by (exists o; rewrite Eo; auto). split; [exact Ht|].
      replace (S (h - 1)) with h by lia. apply anc_root. exact (touch_index D t h u _ Ds C Hu Ht).
    - intros y Hy _ B. destruct (All y Hy) as [-> |H]; [exact (bef_irr _ B)|exact (bef_irr _ (bef_trans _ _ _ B H))]. }
  replace h with (S (h - 1)) at 1 by lia. cbn [nkey].
  destruct (innerv t (h - 1) 0) as [s|] eqn:Es; [|exfalso; exact (ds_none _ _ _ _ Ds _ _ Es u v Lu V)].
  destruct (ds_inner _ _ _ _ Ds _ _ _ Es) as (Ne & ND & Mm).
  assert (Only : forall w, w ∈ s -> w = v).
  { intros w Hw. apply Mm in Hw as (x & Lx & Vx). assert (x = u) as ->.
    { destruct (All x (lv_in _ _ _ _ _ Lx)) as [H|H]; [exact H|]. exfalso. exact (lv_last _ _ _ _ _ Lx u Hu (lv_beneath _ _ _ _ _ Lu) H). }
    pose proof (proj1 (version_at _ _ _ _ _ _ _ _ _ _ _ _ _ _ E Eo Epc M) Vx) as Q. congruence. }
  destruct s as [|a [|b s]]; [contradiction|rewrite (Only a) by left; reflexivity|]. exfalso.
  assert (a = b) as -> by (rewrite (Only a), (Only b); [reflexivity|right; left|left]). apply NoDup_cons in ND as [ND _]. apply ND. left.
Qed.

Lemma describes_member D t h id i : describes ops D t h -> closed D -> t_ids t !! id = Some i -> exists x pk, x ∈ D /\ gives ops x id pk /\ leafv t i = Some (LeafNode id (SKey pk)).
Proof.
  intros Ds C Ei. apply (ds_seat _ _ _ _ Ds) in Ei as [nk El]. pose proof El as Q. apply (ds_leaf _ _ _ _ Ds) in Q as (x & pk & L & G & ->). exists x, pk. split; [apply L|auto].
Qed.
End world.
