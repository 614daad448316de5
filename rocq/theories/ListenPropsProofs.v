(** Proofs of the theorems about what the listener of a client hears. *)
From Coq Require Import Arith Lia.
From stdpp Require Import base list gmap relations.
From Verif Require Import ResModel KeysModel TreeModel OpsModel CgkaModel CgkaSpec CgkaProofs CgkaPropsProofs NetProofs.
From Verif Require Import AccessModel GroupModel GroupSpec GroupPropsProofs PrekeyModel HiveModel HiveSpec HiveProofs SyncModel ArchiveModel ArchiveSpec.
From Verif Require Import DocModel DocSpec DocProofs TransactModel TransactSpec TransactLocal TransactCommit ListenSpec ListenProofs.

(** ** Order of membership events *)

Fixpoint ord (S : sig -> Prop) (log : list (sevent dop)) : Prop :=
  match log with [] => True | x :: log => (forall s, s ∈ needs x -> S s) /\ ord (fun s => S s \/ ev_sig x = Some s) log end.
Lemma ord_mono log : forall S S' : sig -> Prop, (forall s, S s -> S' s) -> ord S log -> ord S' log.
Proof.
  induction log as [|x log IH]; intros S S' H; [auto|]. cbn. intros [A B]. split; [intros s Hs; apply H, A, Hs|]. eapply IH; [|exact B]. cbn. intros s [Q|Q]; auto.
Qed.
Lemma ord_app a : forall S b, ord S (a ++ b) <-> ord S a /\ ord (fun s => S s \/ exists y, y ∈ a /\ ev_sig y = Some s) b.
Proof.
  induction a as [|x a IH]; intros S b; cbn [app ord].
  - split; [intros H; split; [exact I|eapply ord_mono; [|exact H]; auto]|]. intros [_ H]. eapply ord_mono; [|exact H]. intros s [Q|(y & Hy & _)]; [exact Q|inversion Hy].
  - rewrite IH. split.
    + intros (A & B & C). split; [auto|]. eapply ord_mono; [|exact C]. cbn. intros s [[Q|Q]|(y & Hy & Q)]; [auto|right; exists x; split; [left|exact Q]|right; exists y; split; [right; exact Hy|exact Q]].
    + intros [[A B] C]. split; [exact A|]. split; [exact B|]. eapply ord_mono; [|exact C]. cbn. intros s [Q|(y & Hy & Q)]; [auto|]. apply elem_of_cons in Hy as [-> |Hy]; [auto|right; eauto].
Qed.
Lemma ord_side S log : (forall x, x ∈ log -> side x) -> ord S log.
Proof.
  revert S. induction log as [|x log IH]; intros S H; [exact I|]. cbn. split; [|apply IH; intros y Hy; apply H; right; exact Hy].
  intros s Hs. specialize (H x (elem_of_list_here _ _)). destruct x; try contradiction; inversion Hs.
Qed.
Lemma ord_split S l1 x l2 : ord S (l1 ++ x :: l2) -> forall s, s ∈ needs x -> S s \/ exists y, y ∈ l1 /\ ev_sig y = Some s.
Proof. intros O. apply ord_app in O as [_ [O _]]. exact O. Qed.
Lemma needs_parents o s : s ∈ needs (static_of o) -> exists p, p ∈ parents o /\ op_sig p = s.
Proof.
  destruct o as [d|r]; cbn.
  - intros H. apply elem_of_app in H as [H|H].
    + destruct (d_proof d) as [p|]; cbn in H; [|inversion H]. apply elem_of_list_singleton in H as ->. exists (MD p). split; [left|reflexivity].
    + apply elem_of_list_fmap in H as (r & -> & Hr). exists (MR r). split; [|reflexivity]. apply elem_of_app. right. apply elem_of_list_fmap. eauto.
  - intros H. apply elem_of_cons in H as [-> |H]; [exists (MD (r_revoke r)); split; [left|reflexivity]|].
    destruct (r_proof r) as [p|]; cbn in H; [|inversion H]. apply elem_of_list_singleton in H as ->. exists (MD p). split; [right; left|reflexivity].
Qed.
Lemma static_sig o : @ev_sig dop (static_of o) = Some (op_sig o).
Proof. destruct o; reflexivity. Qed.

Section body.
Context (order : gset nat -> list nat) (Hord : some_order order) (horder : gset digest -> list digest) (Hh : some_order horder).
Context (rorder : gset (member_id * nat) -> list (member_id * nat)).
Context (pick : ident -> ident -> share_key) (doc_content : nat -> ident -> bool).
Notation run_call := (run_call order horder rorder pick doc_content).
Notation run_calls := (run_calls order horder rorder pick doc_content).

Lemma trace_ord b i f g l f2 g2 : trace order b i f g l f2 g2 -> forall S : sig -> Prop, (forall o, has_op f o -> S (op_sig o)) -> ord S (map static_of l).
Proof.
  induction 1 as [f g|f g o g1 l f2 g2 T Pa Un _ IH]; intros S HS; [exact I|]. cbn [map ord]. split.
  - intros s Hs. apply needs_parents in Hs as (p & Hp & <-). apply HS, Pa, Hp.
  - apply IH. intros q Hq. apply has_put in Hq; [|apply unsigned_put_slot, Un]. destruct Hq as [Hq| ->]; [left; apply HS; apply (put_slot_has b f i g1 q), Hq|right; apply static_sig].
Qed.

(** ** Prekeys *)

Definition kept (h h' : client) : Prop := ks_indies (h_keys h') = ks_indies (h_keys h).
Lemma quiet_kept h h' : quiet h h' -> kept h h'.
Proof. intros [c ->]. reflexivity. Qed.
Lemma made_kept h (f : client) ds rs : kept h f -> kept h (put_made f ds rs).
Proof. unfold kept. rewrite made_keys. auto. Qed.
Lemma kept_trans a b c : kept a b -> kept b c -> kept a c.
Proof. unfold kept. congruence. Qed.
Definition prekeys_told (h h' : client) (log : list (sevent dop)) : Prop :=
  (forall o, has_prekey h' o -> has_prekey h o \/ EKey o ∈ log) /\ (forall o, has_prekey h o -> has_prekey h' o) /\ forall o, EKey o ∈ log -> has_prekey h' o.
Lemma kept_told h h' log : kept h h' -> (forall x, x ∈ log -> match x with EKey _ => False | _ => True end) -> prekeys_told h h' log.
Proof.
  intros K N. split; [|split].
  - intros o (i & x & E & Ho). left. rewrite K in E. exists i, x. auto.
  - intros o (i & x & E & Ho). exists i, x. rewrite K. auto.
  - intros o Ho. destruct (N _ Ho).
Qed.
Lemma grown_told (h h' : client) i x x' o : ks_indies (h_keys h) !! i = Some x -> in_ops x' = {[ o ]} ∪ in_ops x -> ks_indies (h_keys h') = <[i := x']> (ks_indies (h_keys h)) -> prekeys_told h h' [EKey o].
Proof.
  intros E Ox Ek. split; [|split].
  - intros q (j & y & Ej & Hq). rewrite Ek in Ej. destruct (decide (i = j)) as [<-|N]; [rewrite lookup_insert in Ej; injection Ej as <-|rewrite lookup_insert_ne in Ej by exact N; left; exists j, y; auto].
    rewrite Ox in Hq. apply elem_of_union in Hq as [Hq|Hq]; [apply elem_of_singleton in Hq as ->; right; left|left; exists i, x; auto].
  - intros q (j & y & Ej & Hq). destruct (decide (i = j)) as [<-|N].
    + exists i, x'. rewrite Ek, lookup_insert. split; [reflexivity|]. rewrite E in Ej. injection Ej as <-. rewrite Ox. apply elem_of_union. auto.
    + exists j, y. rewrite Ek, lookup_insert_ne by exact N. auto.
  - intros q Hq. apply elem_of_list_singleton in Hq. injection Hq as ->. exists i, x'. rewrite Ek, lookup_insert, Ox. split; [reflexivity|]. set_solver.
Qed.
Lemma no_prekey_static {A} (f : A -> mop) l x : x ∈ map (fun a => @static_of dop (f a)) l -> match x with EKey _ => False | _ => True end.
Proof. intros H. apply elem_of_list_fmap in H as (a & -> & _). destruct (f a); exact I. Qed.
Lemma no_prekey_key l (x : sevent dop) : x ∈ map ECgka l -> match x with EKey _ => False | _ => True end.
Proof. intros H. apply elem_of_list_fmap in H as (a & -> & _). exact I. Qed.
Lemma call_prekeys h c h' log : own_call doc_content c -> run_call h c = Some (h', log) -> prekeys_told h h' log.
Proof.
  intros Ow E. destruct c as [i ps content|i ps content sk h0 hs hu rng|i who can content s hs|i target retain content sigs hs|j sk x rng|j ref content preds sk x rng|sk|old sk|o|x]; cbn [TransactModel.run_call own_call] in *.
  - unfold hive_generate_group in E. destruct (generate_group _ _ _ _) as [g|]; [|discriminate]. injection E as <- <-. apply kept_told; [apply made_kept; reflexivity|]. intros x. apply (no_prekey_static (fun x => MD (Dlg x.2 i x.1 Admin None [] content))).
  - destruct (hive_generate_doc _ _ _ _ _ _ _ _ _ _ _ _ _) as [f1 [ops|]] eqn:D; [|discriminate]. injection E as <- <-. unfold hive_generate_doc in D.
    destruct (generate_group _ _ _ _) as [g|]; [|discriminate]. destruct (prekey_individuals _ _ _ _ _); [|discriminate]. destruct (cgka_from_init _ _ _) as [c0| | |] eqn:E0; try discriminate. cbv zeta in D.
    destruct (add_keys _ _ _ _ _) as [c1 [o1| | |]] eqn:E1; try discriminate. destruct (cgka_update _ _ _ _ _ _) as [c2 [[[k op] rest]| | |]] eqn:E2; try discriminate. cbv zeta in D. apply (f_equal fst) in D. cbn [fst] in D. rewrite <- D. clear D.
    apply kept_told; [eapply kept_trans; [|apply quiet_kept, quiet_put]; apply made_kept; reflexivity|]. intros x Hx. apply elem_of_app in Hx as [Hx|Hx]; [exact (no_prekey_static (fun x => MD (Dlg x.2 i x.1 Admin None [] content)) _ _ Hx)|exact (no_prekey_key _ _ Hx)].
  - destruct (hive_add_member _ _ _ _ _ _ _ _ _ _ _) as [f1 [[d ops]|]] eqn:D; [|discriminate]. injection E as <- <-.
    apply kept_told; [|intros x Hx; apply elem_of_cons in Hx as [-> |Hx]; [exact I|exact (no_prekey_key _ _ Hx)]].
    unfold hive_add_member in D. destruct (any_loop _ _); [discriminate|].
    destruct (h_groups h !! i) as [g|].
    + destruct (add_member _ _ _ _ _ _ _ _) as [[g' d']|]; [|discriminate]. cbv zeta in D. destruct (_ || _); [discriminate|]. set (w := put_made _ _ _) in D.
      assert (Kw : kept h w) by (apply made_kept; reflexivity). clearbody w.
      destruct (is_reader can); [|injection D as <- <- <-; exact Kw].
      destruct (add_to_docs _ _ _ _ _ _ _ _ _) as [h2 [ops2|]] eqn:Q; [|discriminate]. injection D as <- <- <-. eapply kept_trans; [exact Kw|eapply quiet_kept, add_to_docs_quiet; exact Q].
    + destruct (h_docs h !! i) as [g|]; [|discriminate]. destruct (add_member _ _ _ _ _ _ _ _) as [[g' d']|]; [|discriminate]. cbv zeta in D. destruct (_ || _); [discriminate|]. set (w := put_made _ _ _) in D.
      assert (Kw : kept h w) by (apply made_kept; reflexivity). clearbody w.
      destruct (is_reader can); [|injection D as <- <- <-; exact Kw].
      destruct (pick_prekeys _ _ _ _ _) as [l|]; [|discriminate]. destruct (doc_add_keys _ _ _ _ _ _) as [h2 [ops2|]] eqn:Q; [|discriminate]. injection D as <- <- <-.
      eapply kept_trans; [exact Kw|eapply quiet_kept, add_keys_quiet; exact Q].
  - destruct (hive_revoke_member _ _ _ _ _ _ _ _ _ _) as [f1 [[[rs ds] ops]|]] eqn:D; [|discriminate]. injection E as <- <-.
    apply kept_told; [|intros x Hx; apply elem_of_app in Hx as [Hx|Hx]; [exact (no_prekey_static MR _ _ Hx)|]; apply elem_of_app in Hx as [Hx|Hx]; [exact (no_prekey_static MD _ _ Hx)|exact (no_prekey_key _ _ Hx)]].
    unfold hive_revoke_member in D. destruct (any_loop _ _); [discriminate|].
    destruct (h_groups h !! i) as [g|].
    + destruct (behind _ _ _) as [ids|]; [|discriminate]. destruct (revoke_member _ _ _ _ _ _ _ _) as [[[g' rs'] ds']|]; [|discriminate]. destruct (revoking_hangs _ _ _ _ _); [discriminate|]. cbv zeta in D.
      set (w := put_made _ _ _) in D. assert (Kw : kept h w) by (apply made_kept; reflexivity). clearbody w.
      destruct (bool_decide _); [injection D as <- <- <- <-; exact Kw|].
      destruct (remove_from_docs _ _ _ _ _ _ _ _) as [h2 [ops2|]] eqn:Q; [|discriminate]. injection D as <- <- <- <-. eapply kept_trans; [exact Kw|eapply quiet_kept, remove_from_docs_quiet; exact Q].
    + destruct (h_docs h !! i) as [g|]; [|discriminate].
      destruct (behind _ _ _) as [ids|]; [|discriminate]. destruct (revoke_member _ _ _ _ _ _ _ _) as [[[g' rs'] ds']|]; [|discriminate]. destruct (revoking_hangs _ _ _ _ _); [discriminate|]. cbv zeta in D.
      set (w := put_made _ _ _) in D. assert (Kw : kept h w) by (apply made_kept; reflexivity). clearbody w.
      destruct (group_individual_ids _ _ _) as [still|]; [|discriminate]. destruct (order (ids ∖ still)) as [|z zs]; [injection D as <- <- <- <-; exact Kw|].
      destruct (cgka_of w i) as [c|] eqn:Ec; [|discriminate]. destruct (remove_keys _ _ _ _ _) as [c1 [ops2| | |]] eqn:Q; try (destruct (of_res _); discriminate). injection D as <- <- <- <-. exact Kw.
  - destruct (hive_update _ _ _ _ _ _ _) as [f1 [op|]] eqn:D; [|discriminate]. injection E as <- <-. unfold hive_update in D. destruct (cgka_of h j) as [c|]; [|discriminate]. destruct (cgka_update _ _ _ _ _ _). injection D as <- _.
    apply kept_told; [reflexivity|]. intros y Hy. exact (no_prekey_key [op] _ Hy).
  - destruct (hive_encrypt _ _ _ _ _ _ _ _ _ _) as [f1 [[ec op]|]] eqn:D; [|discriminate]. injection E as <- <-. unfold hive_encrypt in D. destruct (cgka_of h j) as [c|]; [|discriminate]. destruct (new_app_secret_for _ _ _ _ _ _ _ _ _). injection D as <- _.
    apply kept_told; [reflexivity|]. intros y Hy. exact (no_prekey_key _ _ Hy).
  - destruct (make_prekey _ _ _) as [[f1 o]|] eqn:D; [|discriminate]. cbn in E. injection E as <- <-. unfold make_prekey in D. destruct (ks_indies _ !! _) as [y|] eqn:Y; [|discriminate]. cbn in D. injection D as <- <-.
    eapply grown_told; [exact Y| |reflexivity]. reflexivity.
  - destruct (make_prekey _ _ _) as [[f1 o]|] eqn:D; [|discriminate]. cbn in E. injection E as <- <-. unfold make_prekey in D. destruct (ks_indies _ !! _) as [y|] eqn:Y; [|discriminate]. cbn in D. injection D as <- <-.
    eapply grown_told; [exact Y| |reflexivity]. reflexivity.
  - destruct (receive_contact_card _ _) as [k [e|]] eqn:R; [discriminate|]. injection E as <- <-. unfold receive_contact_card in R. destruct (ks_indies _ !! ko_issuer o) as [x|] eqn:X.
    + unfold receive_key in R. destruct (negb (ko_issuer o =? in_id x)); [discriminate|]. destruct (negb (verifies o)); [discriminate|]. injection R as <-.
      eapply grown_told; [exact X| |reflexivity]. reflexivity.
    + injection R as <-. split; [|split].
      * intros q (j & y & Ej & Hq). cbn in Ej. destruct (decide (ko_issuer o = j)) as [<-|N]; [rewrite lookup_insert in Ej; injection Ej as <-; cbn in Hq; apply elem_of_singleton in Hq as ->; right; left|].
        rewrite lookup_insert_ne in Ej by exact N. left. exists j, y. auto.
      * intros q (j & y & Ej & Hq). exists j, y. cbn. rewrite lookup_insert_ne; [auto|]. intros Q. rewrite Q in X. congruence.
      * intros q Hq. apply elem_of_list_singleton in Hq. injection Hq as ->. exists (ko_issuer o), (individual_new o). cbn. rewrite lookup_insert. split; [reflexivity|set_solver].
  - contradiction.
Qed.

(** ** Memberships *)

Definition from (f : client) : sig -> Prop := fun s => exists o, has_op f o /\ op_sig o = s.
Definition members_told (f f' : client) (log : list (sevent dop)) : Prop :=
  (forall o, has_op f' o -> has_op f o \/ static_of o ∈ log) /\ (forall o, has_op f o -> has_op f' o) /\
  (forall x, x ∈ log -> is_Some (ev_sig x) -> exists o, has_op f' o /\ static_of o = x) /\ ord (from f) log.
Lemma side_sig x : side x -> ~ is_Some (ev_sig x).
Proof. destruct x; cbn; intros H [y Q]; solve [contradiction|discriminate]. Qed.
Lemma make_has b i content f x0 g1 o : unsigned f x0.2 -> has_op (make b i (put_dlg f (root i content x0)) g1) o <-> has_op f o \/ o = MD (root i content x0).
Proof. intros U. unfold make. destruct b; apply (has_put f (MD (root i content x0)) o U). Qed.
Lemma in_static l (o : mop) : o ∈ l -> @static_of dop o ∈ map static_of l.
Proof. intros H. apply elem_of_list_fmap. eauto. Qed.
Lemma shape_told f c f' log : fresh_list f (drawn c) -> shape order doc_content f c f' log -> members_told f f' log.
Proof.
  intros [_ Fr] [K _ Sg Sd|b i g rs f1 g1 ds f2 g2 ops K _ Sl T1 T2 Sg Hs _ ->|b i content x0 xs g1 f2 g2 ops K En Ed _ _ G T Sg ->].
  - split; [intros o Ho; left; apply (same_has _ _ o Sg), Ho|]. split; [intros o Ho; apply (same_has _ _ o Sg), Ho|]. split; [|apply ord_side, Sd].
    intros x Hx Q. destruct (side_sig x (Sd x Hx) Q).
  - assert (Mid : forall o, has_op f1 o -> has_op f o \/ o ∈ map MR rs) by (intros o; apply (trace_back _ _ _ _ _ _ _ _ o T1)).
    split; [|split; [|split]].
    + intros o Ho. apply (same_has _ _ o Sg) in Ho. apply (trace_back _ _ _ _ _ _ _ _ o T2) in Ho as [Ho|Ho].
      * apply Mid in Ho as [Ho|Ho]; [auto|]. right. apply elem_of_app. left. apply in_static, Ho.
      * right. apply elem_of_app. right. apply elem_of_app. right. apply elem_of_app. left. apply in_static, Ho.
    + intros o Ho. apply (same_has _ _ o Sg). eapply trace_has; [exact T2|]. eapply trace_has; [exact T1|exact Ho].
    + assert (R : forall x, x ∈ map (@static_of dop) (map MR rs) -> exists o, has_op f' o /\ static_of o = x).
      { intros x Hx. apply elem_of_list_fmap in Hx as (o & -> & Ho). exists o. split; [|reflexivity]. apply (same_has _ _ o Sg). eapply trace_has; [exact T2|]. eapply trace_got; eauto. }
      intros x Hx Q. apply elem_of_app in Hx as [Hx|Hx]; [auto|]. apply elem_of_app in Hx as [Hx|Hx]; [auto|]. apply elem_of_app in Hx as [Hx|Hx].
      * apply elem_of_list_fmap in Hx as (o & -> & Ho). exists o. split; [|reflexivity]. apply (same_has _ _ o Sg). eapply trace_got; eauto.
      * destruct (side_sig x (side_ops _ _ Hx) Q).
    + assert (O1 : forall S : sig -> Prop, (forall s, from f s -> S s) -> ord S (map static_of (map MR rs))).
      { intros S HS. eapply trace_ord; [exact T1|]. intros o Ho. apply HS. exists o. auto. }
      apply ord_app. split; [apply O1; auto|]. apply ord_app. split; [apply O1; auto|]. apply ord_app. split; [|apply ord_side, side_ops].
      eapply trace_ord; [exact T2|]. intros o Ho. apply Mid in Ho as [Ho|Ho]; [left; left; exists o; auto|]. left. right. exists (static_of o). split; [apply in_static, Ho|apply static_sig].
  - assert (U : unsigned f x0.2) by (apply Fr; rewrite Ed; left).
    split; [|split; [|split]].
    + intros o Ho. apply (same_has _ _ o Sg) in Ho. apply (trace_back _ _ _ _ _ _ _ _ o T) in Ho as [Ho|Ho].
      * apply (make_has _ _ _ _ _ _ _ U) in Ho as [Ho| ->]; [auto|]. right. left.
      * right. right. apply elem_of_app. left. apply in_static, Ho.
    + intros o Ho. apply (same_has _ _ o Sg). eapply trace_has; [exact T|]. apply (make_has _ _ _ _ _ _ _ U). auto.
    + intros x Hx Q. apply elem_of_cons in Hx as [-> |Hx].
      * exists (MD (root i content x0)). split; [|reflexivity]. apply (same_has _ _ _ Sg). eapply trace_has; [exact T|]. apply (make_has _ _ _ _ _ _ _ U). auto.
      * apply elem_of_app in Hx as [Hx|Hx]; [|destruct (side_sig x (side_ops _ _ Hx) Q)].
        apply elem_of_list_fmap in Hx as (o & -> & Ho). exists o. split; [|reflexivity]. apply (same_has _ _ o Sg). eapply trace_got; eauto.
    + cbn [ord]. split; [intros s Hs; inversion Hs|]. apply ord_app. split; [|apply ord_side, side_ops].
      eapply trace_ord; [exact T|]. intros o Ho. apply (make_has _ _ _ _ _ _ _ U) in Ho as [Ho| ->]; [left; exists o; auto|right; reflexivity].
Qed.

(** ** One call, and many *)

Lemma sound_graphs h : keys_sound h -> gsound (graphs h).
Proof.
  intros S j g E. unfold graphs in E. rewrite lookup_fmap in E. destruct (cs_docs (h_cg h) !! j) as [c|] eqn:Ec; [|discriminate]. injection E as <-. apply (S j c Ec).
Qed.
Lemma graphs_sound h : gsound (graphs h) -> keys_sound h.
Proof. intros G j c E. apply (G j _ (graphs_at _ _ _ E)). Qed.
Lemma members_trans f f1 f2 l1 l2 : members_told f f1 l1 -> members_told f1 f2 l2 -> members_told f f2 (l1 ++ l2).
Proof.
  intros (A & B & C & D) (A1 & B1 & C1 & D1). split; [|split; [|split]].
  - intros o Ho. apply A1 in Ho as [Ho|Ho]; [apply A in Ho as [Ho|Ho]; [auto|]|]; right; apply elem_of_app; auto.
  - auto.
  - intros x Hx Q. apply elem_of_app in Hx as [Hx|Hx]; [|auto]. destruct (C x Hx Q) as (o & Ho & E). exists o. auto.
  - apply ord_app. split; [exact D|]. eapply ord_mono; [|exact D1]. intros s (o & Ho & <-). apply A in Ho as [Ho|Ho]; [left; exists o; auto|right; exists (static_of o); split; [exact Ho|apply static_sig]].
Qed.
Lemma prekeys_trans f f1 f2 l1 l2 : prekeys_told f f1 l1 -> prekeys_told f1 f2 l2 -> prekeys_told f f2 (l1 ++ l2).
Proof.
  intros (A & B & C) (A1 & B1 & C1). split; [|split].
  - intros o Ho. apply A1 in Ho as [Ho|Ho]; [apply A in Ho as [Ho|Ho]; [auto|]|]; right; apply elem_of_app; auto.
  - auto.
  - intros x Hx. apply elem_of_app in Hx as [Hx|Hx]; auto.
Qed.
Lemma keyed_trans new new1 who h l hs h1 l1 hs1 h2 : keyed new who h l hs h1 -> keyed new1 who h1 l1 hs1 h2 -> keyed (new ++ new1) who h (l ++ l1) (fun j => hs j ++ hs1 j) h2.
Proof.
  intros (A & B & C & D) (A1 & B1 & C1 & D1). split; [rewrite foldl_app, <- A; exact A1|]. split; [apply kfits_app; rewrite <- A; auto|]. split.
  - intros j. rewrite hashes_app. apply sublist_app; auto.
  - intros o Ho. apply elem_of_app in Ho as [Ho|Ho].
    + destruct (D o Ho) as [Q1 Q2]. split; [exact Q1|]. rewrite elem_of_app. tauto.
    + destruct (D1 o Ho) as [Q1 Q2]. split; [exact Q1|]. rewrite elem_of_app. destruct Q2 as [Q2|Q2]; [|auto]. rewrite A in Q2. apply kadds_dom in Q2 as [Q2|(y & Hy & <-)]; [auto|]. destruct (D y Hy) as [_ Q]. tauto.
Qed.
Lemma cgka_none h i : cgka_of h i = None <-> graphs h !! i = None.
Proof. unfold graphs, cgka_of. rewrite lookup_fmap. destruct (_ !! i); cbn; split; congruence. Qed.
Lemma body_told cs : forall f f' log, (forall c, c ∈ cs -> own_call doc_content c) -> stocked f -> fresh_list f (concat (map drawn cs)) -> NoDup (concat (map named cs)) ->
  (forall i, i ∈ concat (map named cs) -> h_groups f !! i = None /\ h_docs f !! i = None /\ cgka_of f i = None) -> run_calls f cs = Some (f', log) ->
  members_told f f' log /\ prekeys_told f f' log /\ keyed (concat (map named cs)) (me f) f (key_events log) (fun j => concat (map (digests_of j) cs)) f' /\ me f' = me f.
Proof.
  induction cs as [|c cs IH]; intros f f' log Ow S Fr Nd Nm E; cbn [TransactModel.run_calls map concat] in *.
  { injection E as <- <-. split; [|split; [|split; [apply keyed_nil; reflexivity|reflexivity]]].
    - split; [auto|]. split; [auto|]. split; [intros x Hx; inversion Hx|exact I].
    - split; [auto|]. split; [auto|]. intros x Hx; inversion Hx. }
  destruct (run_call f c) as [[f1 l1]|] eqn:E1; [|discriminate]. destruct (run_calls f1 cs) as [[f2 l2]|] eqn:E2; [|discriminate]. injection E as <- <-.
  destruct Fr as [Ns Us]. apply NoDup_app in Ns as (Na & Nab & Nb). apply NoDup_app in Nd as (Ma & Mab & Mb).
  assert (Fr1 : fresh_list f (drawn c)) by (split; [exact Na|]; intros s Hs; apply Us, elem_of_app; auto).
  assert (Nm1 : forall i, i ∈ named c -> h_groups f !! i = None /\ h_docs f !! i = None) by (intros i Hi; destruct (Nm i) as (A & B & _); [apply elem_of_app; auto|auto]).
  pose proof (Ow c (elem_of_list_here _ _)) as Oc.
  pose proof (run_call_shape order Hord horder rorder pick doc_content f c f1 l1 Oc S Fr1 Nm1 E1) as Sh. destruct (shape_frame _ _ _ _ _ _ Sh) as (Fs & Fn & Fk).
  destruct (call_keyed order Hord horder Hh rorder pick doc_content f c f1 l1 Oc) as [K Me]; [intros i Hi; apply Nm, elem_of_app; auto|exact E1|].
  destruct (IH f1 f2 l2) as (M2 & P2 & K2 & Me2).
  - intros x Hx. apply Ow. right. exact Hx.
  - eapply shape_stocked; [exact Hord|exact S|exact Fr1|exact Nm1|exact Sh].
  - split; [exact Nb|]. intros s Hs. apply Fs; [apply Us, elem_of_app; auto|]. intros Q. apply (Nab s Q Hs).
  - exact Mb.
  - intros i Hi. destruct (Nm i) as (A & B & C); [apply elem_of_app; auto|]. assert (Ni : i ∉ named c) by (intros Q; apply (Mab i Q Hi)). destruct (Fn i (conj A B) Ni) as [A1 B1]. split; [exact A1|]. split; [exact B1|].
    destruct K as (K & _ & _ & D). apply cgka_none. apply cgka_none in C. apply eq_None_not_Some. rewrite K. intros Q. apply kadds_dom in Q as [[q Q]|(o & Ho & <-)]; [congruence|]. destruct (D o Ho) as [_ [[q Q]|Q]]; [congruence|auto].
  - exact E2.
  - split; [eapply members_trans; [eapply shape_told; eauto|exact M2]|]. split; [eapply prekeys_trans; [eapply call_prekeys; eauto|exact P2]|]. split; [|congruence].
    rewrite key_events_app. rewrite Me in K2. exact (keyed_trans _ _ _ _ _ _ _ _ _ _ K K2).
Qed.
Lemma sublist_nodup {A} (a b : list A) : sublist a b -> NoDup b -> NoDup a.
Proof.
  induction 1 as [|x a b H IH|x a b H IH]; intros N; [exact N| |apply IH; apply NoDup_cons in N; tauto]. apply NoDup_cons in N as [N1 N2]. apply NoDup_cons. split; [|auto].
  intros Q. apply N1. eapply elem_of_submseteq; [exact Q|apply sublist_submseteq, H].
Qed.
Lemma key_event o log : ECgka o ∈ log <-> o ∈ key_events log.
Proof.
  unfold key_events. rewrite elem_of_list_omap. split; [intros H; exists (ECgka o); auto|]. intros (x & Hx & E). destruct x; try discriminate. injection E as ->. exact Hx.
Qed.
Lemma new_unused h cs l : keys_sound h -> (forall j, sublist (hashes j l) (concat (map (digests_of j) cs))) -> new_digests h cs -> unused_hashes (graphs h) l.
Proof.
  intros Sd Sl [_ N] j. destruct (N j) as [Nd F]. split; [eapply sublist_nodup; [apply Sl|exact Nd]|]. intros x Hx. apply eq_None_not_Some. intros [o E].
  destruct (gat_sound _ j (sound_graphs h Sd)) as [A _]. pose proof (A x o E) as Q. apply (F x o); [eapply elem_of_submseteq; [exact Hx|apply sublist_submseteq, Sl]| |exact Q]. apply gat_op. rewrite Q. exact E.
Qed.
Lemma calls_heard h cs h' log : stocked h -> keys_sound h -> (forall c, c ∈ cs -> own_call doc_content c) -> fresh_draws h (concat (map drawn cs)) (concat (map named cs)) -> new_digests h cs ->
  run_calls h cs = Some (h', log) -> all_told h h' log /\ all_true h' log /\ told_in_order h log /\ keys_sound h' /\ me h' = me h.
Proof.
  intros S Sd Ow Fr New E. destruct (body_told cs h h' log Ow S) as ((MA & MB & MC & MD) & (PA & PB & PC) & (KA & KB & KC & KD) & Me).
  - split; [apply (fd_sigs _ _ _ Fr)|intros s Hs; apply (fd_new_sig _ _ _ Fr s Hs)].
  - apply (fd_ids _ _ _ Fr).
  - intros i Hi. destruct (fd_new_id _ _ _ Fr i Hi) as (A & B & _). split; [exact A|]. split; [exact B|]. apply (proj1 New i Hi).
  - exact E.
  - pose proof (new_unused h cs _ Sd KC New) as U. split; [|split; [|split; [|split; [|exact Me]]]].
    + constructor; [exact MA| |exact PA]. intros j o Ho. apply gat_op in Ho. rewrite KA in Ho. apply kadds_back in Ho as [Ho|(y & Hy & D1 & D2 & _)]; [left; apply gat_op, Ho|].
      right. apply key_event. rewrite (proj1 (KD y Hy)) in Hy. rewrite D1, D2 in Hy. exact Hy.
    + intros x Hx. destruct x; cbn [knows]; [apply PC, Hx| |apply MC; [exact Hx|eexists; reflexivity]|apply MC; [exact Hx|eexists; reflexivity]]. apply gat_op. rewrite KA. apply kadds_have; [exact U|apply key_event, Hx].
    + intros l1 x l2 El. split.
      * rewrite El in MD. intros s Hs. exact (ord_split _ _ _ _ MD s Hs).
      * intros o p -> Hp. assert (Q : key_events log = key_events l1 ++ o :: key_events l2) by (rewrite El, key_events_app; reflexivity). rewrite Q in KB.
        destruct (kadds_order _ _ _ _ (sound_graphs h Sd) KB p Hp) as [(q & A & B)|(y & Hy & A & B)]; [left; exists q; split; [apply gat_op, A|exact B]|]. right. exists y. split; [apply key_event, Hy|auto].
    + apply graphs_sound. rewrite KA. apply kadds_sound, sound_graphs, Sd.
Qed.
End body.

(** ** Received events *)

Section received.
Context (order : gset nat -> list nat) (horder : gset digest -> list digest) (rorder : gset (member_id * nat) -> list (member_id * nat)).
Context (pick : ident -> ident -> share_key) (doc_content : nat -> ident -> bool).

Lemma merge_grows c op c' r : merge_concurrent_operation horder rorder c op = (c', r) ->
  g_ops (c_graph c') = (match r with Ok true => <[so_hash op := op]> (g_ops (c_graph c)) | _ => g_ops (c_graph c) end) /\
  (forall b, r = Ok b -> (b = true <-> contains_op (c_graph c) (so_hash op) = false)).
Proof.
  intros E. destruct r as [b|e| |].
  - destruct (merge_accept_lemma _ _ _ _ _ _ E) as (A & B & _). split; [rewrite A; destruct b; reflexivity|]. intros b' Q. injection Q as <-. rewrite B. unfold contains_op. rewrite bool_decide_eq_false, eq_None_not_Some. reflexivity.
  - split; [rewrite (merge_fail_lemma _ _ _ _ _ _ E); [reflexivity|discriminate]|discriminate].
  - split; [rewrite (merge_fail_lemma _ _ _ _ _ _ E); [reflexivity|discriminate]|discriminate].
  - split; [rewrite (merge_fail_lemma _ _ _ _ _ _ E); [reflexivity|discriminate]|discriminate].
Qed.
(** The key of the document of a received operation before and after. *)
Definition grew (c : option cgka) (op : signed_op) (ok : bool) (c' : option cgka) : Prop :=
  let ops (c : option cgka) := match c with Some c => g_ops (c_graph c) | None => ∅ end in
  ops c' = (if ok then match ops c !! so_hash op with None => <[so_hash op := op]> (ops c) | Some _ => ops c end else ops c) /\ (c' = None -> c = None).
Lemma merge_op_grew c op c' r : merge_cgka_op horder rorder c op = (c', r) -> grew c op (match r with Ok _ => true | _ => false end) c'.
Proof.
  unfold merge_cgka_op. destruct c as [c|].
  - destruct (merge_concurrent_operation horder rorder c op) as [c1 r1] eqn:E. intros Q. injection Q as <- <-. apply merge_grows in E as [A B]. split; [|discriminate]. rewrite A.
    destruct r1 as [[]|e| |]; try reflexivity.
    + specialize (B true eq_refl). destruct B as [B _]. specialize (B eq_refl). unfold contains_op in B. apply bool_decide_eq_false in B. apply eq_None_not_Some in B. rewrite B. reflexivity.
    + specialize (B false eq_refl). destruct (g_ops (c_graph c) !! so_hash op) eqn:L; [reflexivity|]. destruct B as [_ B]. unfold contains_op in B. rewrite L in B. specialize (B eq_refl). discriminate.
  - destruct (so_op op) as [id pk ix [|p ps] apk|? ? ? ?|? ? ?] eqn:Eo; intros Q; [|injection Q as <- <-; split; [reflexivity|auto]..].
    destruct (cgka_from_init id pk op) as [c1|e| |] eqn:E0; injection Q as <- <-; [|split; [reflexivity|auto]..].
    unfold cgka_from_init in E0. apply rbind_ok in E0 as (t & _ & E0). injection E0 as <-. cbn. split; [reflexivity|discriminate].
Qed.
Lemma invite_grew c op sk c' r : merge_cgka_invite_op horder rorder c op sk = (c', r) -> grew c op (match r with Ok _ => true | _ => false end) c'.
Proof.
  unfold merge_cgka_invite_op. destruct (so_op op); try (intros Q; injection Q as <- <-; split; [reflexivity|auto]).
  destruct c as [c|]; [|intros Q; injection Q as <- <-; split; [reflexivity|auto]]. destruct (negb _); [intros Q; injection Q as <- <-; split; [reflexivity|auto]|].
  intros Q. apply merge_op_grew in Q. destruct Q as [A B]. split; [exact A|]. intros Z. specialize (B Z). discriminate.
Qed.
Lemma doc_receive_grew k x o x' ok : doc_receive horder rorder k x o = (x', ok) ->
  (forall j, j <> do_doc o -> cs_docs x' !! j = cs_docs x !! j) /\ grew (cs_docs x !! do_doc o) (do_op o) ok (cs_docs x' !! do_doc o).
Proof.
  unfold doc_receive. cbv zeta. set (put := fun c : option cgka => match c with Some c => Cgs (cs_pairs x) (<[do_doc o := c]> (cs_docs x)) | None => x end).
  assert (P : forall c ok', grew (cs_docs x !! do_doc o) (do_op o) ok' c -> (forall j, j <> do_doc o -> cs_docs (put c) !! j = cs_docs x !! j) /\ grew (cs_docs x !! do_doc o) (do_op o) ok' (cs_docs (put c) !! do_doc o)).
  { intros [c|] ok' G; unfold put; cbn.
    - split; [intros j N; apply lookup_insert_ne; auto|]. rewrite lookup_insert. exact G.
    - split; [reflexivity|]. destruct G as [A B]. specialize (B eq_refl). rewrite B in *. split; [exact A|auto]. }
  assert (Id : grew (cs_docs x !! do_doc o) (do_op o) false (cs_docs x !! do_doc o)) by (split; [reflexivity|auto]).
  assert (Pl : forall x' ok, (match merge_cgka_op horder rorder (cs_docs x !! do_doc o) (do_op o) with (c, r) => (put c, match r with Ok _ => true | _ => false end) end) = (x', ok) ->
    (forall j, j <> do_doc o -> cs_docs x' !! j = cs_docs x !! j) /\ grew (cs_docs x !! do_doc o) (do_op o) ok (cs_docs x' !! do_doc o)).
  { intros y b. destruct (merge_cgka_op _ _ _ _) as [c r] eqn:E. intros Q. injection Q as <- <-. apply P, merge_op_grew, E. }
  destruct (so_op (do_op o)) as [id pk ix preds apk|? ? ? ?|? ? ?]; try apply Pl. destruct (id =? ks_active k).
  - destruct (cs_pairs x !! pk) as [sk|]; [|intros Q; injection Q as <- <-; split; [reflexivity|exact Id]].
    destruct (merge_cgka_invite_op _ _ _ _ _) as [c r] eqn:E. intros Q. injection Q as <- <-. apply P. eapply invite_grew; exact E.
  - destruct (id =? ks_public k); [|apply Pl]. destruct (merge_cgka_invite_op _ _ _ _ _) as [c r] eqn:E. apply invite_grew in E.
    destruct r as [b|e| |]; try (intros Q; injection Q as <- <-; apply P, E). destruct (reset_cgka_owner c (ks_active k)) as [c1 r1] eqn:R. intros Q. injection Q as <- <-.
    destruct c as [c|]; cbn in R; injection R as <- <-.
    + apply (P (Some (with_new_owner c (ks_active k) (c_sks c))) true). destruct E as [A _]. split; [exact A|discriminate].
    + apply (P None false). destruct E as [_ B]. rewrite (B eq_refl). split; [reflexivity|auto].
Qed.
Notation receive := (receive_event order doc_content do_doc do_ok (doc_receive horder rorder)).
(** Keys change only by operations of keys that are accepted, and then by that operation only. *)
Lemma received_key h o h' out : keys_sound h -> receive h (ECgka o) = (h', out) ->
  forall j q, has_key_op h' j q <-> has_key_op h j q \/ (j = do_doc o /\ q = do_op o /\ ECgka o ∈ heard h (ECgka o) out).
Proof.
  intros Sd E j q. cbn [receive_event] in E. unfold receive_cgka in E.
  assert (Id : forall out', ECgka o ∉ heard h (ECgka o) out' -> has_key_op h j q <-> has_key_op h j q \/ (j = do_doc o /\ q = do_op o /\ ECgka o ∈ heard h (ECgka o) out')) by (intros out' N; tauto).
  destruct (negb (do_ok o)); [injection E as <- <-; apply Id; intros Q; inversion Q|]. destruct (h_docs h !! do_doc o) as [g|]; [|injection E as <- <-; apply Id; intros Q; inversion Q].
  destruct (doc_receive horder rorder (h_keys h) (h_cg h) o) as [x ok] eqn:D. injection E as <- <-. apply doc_receive_grew in D as (A & B & _). cbv zeta in B.
  set (ops := fun c : option cgka => match c with Some c => g_ops (c_graph c) | None => ∅ end).
  change (match cs_docs (h_cg h) !! do_doc o with Some c => g_ops (c_graph c) | None => ∅ end) with (ops (cs_docs (h_cg h) !! do_doc o)) in B.
  assert (Hk : forall (h : client) j q, has_key_op h j q <-> ops (cgka_of h j) !! so_hash q = Some q).
  { intros h0 j0 q0. unfold has_key_op, ops. destruct (cgka_of h0 j0) as [c|]; split; [intros (c' & Q & R); injection Q as <-; exact R|eauto|intros (c' & Q & _); discriminate|rewrite lookup_empty; discriminate]. }
  rewrite !Hk. unfold cgka_of at 1. cbn [put_cg h_cg]. destruct (decide (j = do_doc o)) as [->|N]; [|rewrite (A j N); unfold cgka_of; tauto].
  change (match cs_docs x !! do_doc o with Some c => g_ops (c_graph c) | None => ∅ end) with (ops (cs_docs x !! do_doc o)) in B. rewrite B. cbn [heard]. unfold cgka_of. assert (So : forall z y, ops (cs_docs (h_cg h) !! do_doc o) !! z = Some y -> so_hash y = z).
  { intros z y. unfold ops. destruct (cs_docs (h_cg h) !! do_doc o) as [c|] eqn:Ec; [apply (Sd _ c Ec)|rewrite lookup_empty; discriminate]. }
  destruct ok; [|split; [auto|intros [Q|(_ & _ & Q)]; [exact Q|inversion Q]]].
  destruct (ops (cs_docs (h_cg h) !! do_doc o) !! so_hash (do_op o)) as [y|] eqn:L.
  - split; [auto|]. intros [Q|(_ & _ & Q)]; [exact Q|]. destruct (cs_docs (h_cg h) !! do_doc o) as [c|]; [|cbn in L; rewrite lookup_empty in L; discriminate].
    unfold contains_op in Q. cbn in L. rewrite L in Q. inversion Q.
  - assert (He : ECgka o ∈ (match cs_docs (h_cg h) !! do_doc o with Some c => if contains_op (c_graph c) (so_hash (do_op o)) then [] else [ECgka o] | None => [ECgka o] end)).
    { destruct (cs_docs (h_cg h) !! do_doc o) as [c|]; [|left]. unfold contains_op. cbn in L. rewrite L. left. }
    split.
    + intros Q. destruct (decide (so_hash (do_op o) = so_hash q)) as [Eq|Nq]; [rewrite Eq, lookup_insert in Q; injection Q as <-; right; auto|rewrite lookup_insert_ne in Q by exact Nq; auto].
    + intros [Q|(_ & -> & _)]; [|apply lookup_insert]. rewrite lookup_insert_ne; [exact Q|]. intros Eq. congruence.
Qed.
Lemma resolved_static h x r : (forall s d, h_dlgs h !! s = Some d -> d_sig d = s) -> sr_ok x = true -> resolve_rev (h : client) x = inr r -> @static_of dop (MR r) = ERev x.
Proof.
  intros F Ok. unfold resolve_rev. destruct (h_dlgs h !! sr_revoke x) as [t|] eqn:Et; [|discriminate]. destruct (find_proof_dlg _ _) as [|p] eqn:Ep; [discriminate|]. intros Q. injection Q as <-.
  apply find_proof_spec in Ep. cbn. rewrite (F _ _ Et). destruct x as [s i t0 pr c ok]. cbn in *. subst ok. f_equal. f_equal.
  destruct pr as [pr|], p as [p|]; try contradiction; cbn; [|reflexivity]. rewrite (F _ _ Ep). reflexivity.
Qed.
Lemma rev_step h x h' out r : receive_rev order (h : client) x = (h', out) -> has_op h' (MR r) -> has_op h (MR r) \/
  sr_ok x = true /\ resolve_rev h x = inr r /\ h_revs h !! sr_sig x = None.
Proof.
  intros E Hr. unfold receive_rev in E. destruct (bool_decide _) eqn:Nw; [injection E as <- _; auto|]. apply bool_decide_eq_false, eq_None_not_Some in Nw. destruct (sr_ok x) eqn:Ok; cbn [negb] in E; [|injection E as <- _; auto].
  destruct (resolve_rev h x) as [er|r0] eqn:Er; [injection E as <- _; auto|].
  assert (P : forall h0 : client, h_revs h0 = h_revs h -> has_op (put_rev h0 r0) (MR r) -> has_op h (MR r) \/ true = true /\ @inr herror rev r0 = inr r /\ h_revs h !! sr_sig x = None).
  { intros h0 E0 H. cbn in H. rewrite E0 in H. destruct (decide (r_sig r0 = r_sig r)) as [Q|N]; [rewrite Q, lookup_insert in H; injection H as ->; auto|rewrite lookup_insert_ne in H by exact N; left; exact H]. }
  cbv zeta in E. destruct (h_groups h !! r_subject r0) as [g|].
  - destruct (revocation_hangs _ _ _); [injection E as <- _; auto|]. destruct (receive_revocation _ _ _ _) as [g'|]; injection E as <- _; [|auto]. exact (P (put_group h (r_subject r0) g') eq_refl Hr).
  - destruct (h_docs h !! r_subject r0) as [g|].
    + destruct (revocation_hangs _ _ _); [injection E as <- _; auto|]. destruct (receive_revocation _ _ _ _) as [g'|]; injection E as <- _; [|auto]. exact (P (put_doc h (r_subject r0) g') eq_refl Hr).
    + destruct (ks_indies (h_keys h) !! r_subject r0); [|injection E as <- _; auto]. destruct (promotion_panics _ _); [injection E as <- _; auto|].
      destruct (new_group order (r_revoke r0)) as [g|]; [|injection E as <- _; auto]. destruct (revocation_hangs _ _ _); [injection E as <- _; auto|]. destruct (receive_revocation _ _ _ _); injection E as <- _; [|auto].
      exact (P (drop_individual h (r_subject r0)) eq_refl Hr).
Qed.
Lemma received_rev h x h' out : (forall s d, h_dlgs h !! s = Some d -> d_sig d = s) -> receive h (ERev x) = (h', out) -> forall r, has_op h' (MR r) -> has_op h (MR r) \/ static_of (MR r) ∈ heard h (ERev x) out.
Proof.
  intros F E r Hr. cbn [receive_event] in E. destruct (rev_step _ _ _ _ _ E Hr) as [H|(Ok & Er & Nw)]; [auto|]. right. rewrite (resolved_static h x r F Ok Er). cbn [heard].
  rewrite Nw, Ok, Er. cbn. destruct (_ || _); [left|right; left].
Qed.

(** ** Keys stay sound *)

Definition sound1 (c : cgka) : Prop :=
  (forall x o, g_ops (c_graph c) !! x = Some o -> so_hash o = x) /\ (forall x, x ∈ g_heads (c_graph c) -> is_Some (g_ops (c_graph c) !! x)).
Lemma sound1_eq c c' : c_graph c' = c_graph c -> sound1 c -> sound1 c'.
Proof. unfold sound1. intros ->. auto. Qed.
Lemma sound1_put c c' op ex : c_graph c' = add_op_and_update_heads (c_graph c) op ex -> sound1 c -> sound1 c'.
Proof.
  unfold sound1. intros -> [A B]. unfold add_op_and_update_heads. destruct ex as [e|]; cbn; (split; [intros x o; destruct (decide (so_hash op = x)) as [<-|N]; [rewrite lookup_insert; intros Q; injection Q as <-; reflexivity|rewrite lookup_insert_ne by exact N; apply A]|]).
  - intros x Hx. destruct (decide (so_hash op = x)) as [<-|N]; [rewrite lookup_insert; eauto|rewrite lookup_insert_ne by exact N; apply B; set_solver].
  - intros x Hx. assert (x = so_hash op) as -> by set_solver. rewrite lookup_insert. eauto.
Qed.
Lemma add_sound c i pk x c' r : cgka_add horder rorder c i pk x = (c', r) -> sound1 c -> sound1 c'.
Proof.
  unfold cgka_add. destruct (contains_id _ _); [intros Q; injection Q as <- <-; auto|].
  destruct (maybe_replay horder rorder c) as [c1|e| |] eqn:Em; intros Q; [|injection Q as <- <-; auto..]. apply maybe_replay_graph in Em as (G & _).
  destruct (push_leaf _ _ _) as [[t n]|e| |]; injection Q as <- <-; [|apply sound1_eq, G..]. intros S. eapply (sound1_put c1 _ _ None); [reflexivity|exact (sound1_eq _ _ G S)].
Qed.
Lemma remove_sound c i x c' r : cgka_remove horder rorder c i x = (c', r) -> sound1 c -> sound1 c'.
Proof.
  unfold cgka_remove. destruct (negb _); [intros Q; injection Q as <- <-; auto|].
  destruct (maybe_replay horder rorder c) as [c1|e| |] eqn:Em; intros Q; [|injection Q as <- <-; auto..]. apply maybe_replay_graph in Em as (G & _).
  destruct (_ =? 1); [injection Q as <- <-; apply sound1_eq, G|]. destruct (remove_id _ _) as [[t [n ks]]|e| |]; injection Q as <- <-; [|apply sound1_eq, G..]. intros S. eapply (sound1_put c1 _ _ None); [reflexivity|exact (sound1_eq _ _ G S)].
Qed.
Lemma update_sound c sk x rng c' r : cgka_update horder rorder c sk x rng = (c', r) -> sound1 c -> sound1 c'.
Proof.
  unfold cgka_update. destruct (maybe_replay horder rorder c) as [c1|e| |] eqn:Em; intros Q; [|injection Q as <- <-; auto..]. apply maybe_replay_graph in Em as (G & _).
  destruct (update_identity _ _ _) as [[[id pk] sk']|e| |]; [|injection Q as <- <-; apply sound1_eq, G..].
  destruct (encrypt_path _ _ _ _ _) as [[[[[t k'] path] sks] rng']|e| |]; injection Q as <- <-; [|apply sound1_eq, G..]. intros S. eapply (sound1_put c1 _ _ None); [reflexivity|exact (sound1_eq _ _ G S)].
Qed.
Lemma app_secret_sound c ref content preds sk x rng c' r : new_app_secret_for horder rorder c ref content preds sk x rng = (c', r) -> sound1 c -> sound1 c'.
Proof.
  unfold new_app_secret_for. destruct (has_pcs_key c) as [[]|e| |]; [| |intros Q; injection Q as <- <-; auto..].
  - destruct (pcs_key_from_tree_root c) as [c1 r1] eqn:Er. apply root_graph in Er as [sks ->]. destruct r1 as [k|e| |]; [|intros Q; injection Q as <- <-; auto..].
    destruct (c_pcs _ !! _); [|destruct (horder _)]; destruct (c_pcs_ops _ !! _); intros Q; injection Q as <- <-; apply sound1_eq; reflexivity.
  - destruct (cgka_update _ _ _ _ _ _) as [c1 r1] eqn:Eu. destruct r1 as [[[k op] rng']|e| |]; intros Q S; pose proof (update_sound _ _ _ _ _ _ Eu S) as S1; [|injection Q as <- <-; exact S1..].
    destruct (c_pcs_ops _ !! _); injection Q as <- <-; [exact S1|exact S1].
Qed.
Lemma decryption_graph c e c' r : decryption_key_for rorder c e = (c', r) -> c_graph c' = c_graph c.
Proof.
  intros Q.
  assert (DG : forall c1 c2 h r, derive_pcs_key_for_op rorder c1 h = (c2, r) -> c_graph c2 = c_graph c1).
  { intros c1 c2 h r1 D. unfold derive_pcs_key_for_op in D. destruct (negb _); [injection D as <- <-; auto|].
    destruct (topsort_for_heads _ _); [|injection D as <- <-; auto..]. unfold rebuild_pcs_key in D. destruct (rbind _ _); [|injection D as <- <-; auto..]. destruct (last_first _); injection D as <- <-; auto. }
  assert (PG : forall c2 r, pcs_key_from_hashes rorder c (ec_pcs e) (ec_op e) = (c2, r) -> c_graph c2 = c_graph c).
  { intros c2 r2. unfold pcs_key_from_hashes. destruct (c_pcs c !! _); [intros D; injection D as <- <-; auto|].
    destruct (has_pcs_key c) as [[]|er| |]; try (intros D; injection D as <- <-; auto; fail); [|intros D; apply DG in D; exact D].
    destruct (pcs_key_from_tree_root c) as [c1 r1] eqn:Er. apply root_graph in Er as [sks ->].
    destruct r1; try (intros D; injection D as <- <-; auto; fail); [|intros D; apply DG in D; exact D]. destruct (_ =? _); [intros D; injection D as <- <-; auto|intros D; apply DG in D; exact D]. }
  unfold decryption_key_for in Q. destruct (pcs_key_from_hashes _ _ _ _) as [c1 r1] eqn:Ep. pose proof (PG _ _ eq_refl) as A.
  destruct r1 as [k|er| |]; [|injection Q as <- <-; auto..]. destruct (c_pcs c1 !! _); injection Q as <- <-; auto.
Qed.
Lemma merge_sound c op c' r : merge_concurrent_operation horder rorder c op = (c', r) -> sound1 c -> sound1 c'.
Proof.
  intros E S. apply merge_step in E as (_ & _ & _ & [(_ & -> & _)|[(_ & _ & -> & _)|(_ & _ & [[_ G]|[_ G]])]]); [exact S|exact S|eapply sound1_put; [exact G|exact S]|eapply sound1_eq; [exact G|exact S]].
Qed.
Lemma add_keys_sound l : forall c hs c' r, add_keys horder rorder c l hs = (c', r) -> sound1 c -> sound1 c'.
Proof.
  induction l as [|[i pk] l IH]; intros c hs c' r; cbn [add_keys]; [intros Q; injection Q as <- <-; auto|].
  destruct hs as [|x hs]; [intros Q; injection Q as <- <-; auto|]. destruct (cgka_add _ _ c i pk x) as [c1 [o|e| |]] eqn:Ea; intros Q S; pose proof (add_sound _ _ _ _ _ _ Ea S) as S1; [|injection Q as <- <-; exact S1..].
  destruct (add_keys _ _ c1 l hs) as [c2 [ops'|e| |]] eqn:E; injection Q as <- <-; eapply IH; eauto.
Qed.
Lemma remove_keys_sound l : forall c hs c' r, remove_keys horder rorder c l hs = (c', r) -> sound1 c -> sound1 c'.
Proof.
  induction l as [|i l IH]; intros c hs c' r; cbn [remove_keys]; [intros Q; injection Q as <- <-; auto|].
  destruct hs as [|x hs]; [intros Q; injection Q as <- <-; auto|]. destruct (cgka_remove _ _ c i x) as [c1 [o|e| |]] eqn:Ea; intros Q S; pose proof (remove_sound _ _ _ _ _ Ea S) as S1; [|injection Q as <- <-; exact S1..].
  destruct (remove_keys _ _ c1 l hs) as [c2 [ops'|e| |]] eqn:E; injection Q as <- <-; eapply IH; eauto.
Qed.
Lemma try_remove_sound l : forall c hs c' r, try_remove_keys horder rorder c l hs = (c', r) -> sound1 c -> sound1 c'.
Proof.
  induction l as [|i l IH]; intros c hs c' r; cbn [try_remove_keys]; [intros Q; injection Q as <- <-; auto|].
  destruct hs as [|x hs]; [intros Q; injection Q as <- <-; auto|]. destruct (cgka_remove _ _ c i x) as [c1 [o|e| |]] eqn:Ea; intros Q S; pose proof (remove_sound _ _ _ _ _ Ea S) as S1; [|eapply IH; eauto|injection Q as <- <-; exact S1..].
  destruct (try_remove_keys _ _ c1 l hs) as [c2 [ops'|e| |]] eqn:E; injection Q as <- <-; eapply IH; eauto.
Qed.

Lemma put_sound h j c : keys_sound h -> sound1 c -> keys_sound (put_cgka h j c).
Proof.
  intros S S1 i c' E. unfold cgka_of, put_cgka in E. cbn in E. destruct (decide (j = i)) as [->|N]; [rewrite lookup_insert in E; injection E as <-; exact S1|rewrite lookup_insert_ne in E by exact N; exact (S i c' E)].
Qed.
Lemma same_sound (h h' : client) : h_cg h' = h_cg h -> keys_sound h -> keys_sound h'.
Proof. intros E S j c. unfold cgka_of. rewrite E. apply S. Qed.
Lemma made_cg (h : client) ds rs : h_cg (put_made h ds rs) = h_cg h.
Proof.
  unfold put_made. assert (A : forall ds (f : client), h_cg (foldl put_dlg f ds) = h_cg f) by (induction ds0 as [|d l IH]; intros f; [reflexivity|cbn; rewrite IH; reflexivity]).
  assert (B : forall rs (f : client), h_cg (foldl put_rev f rs) = h_cg f) by (induction rs0 as [|d l IH]; intros f; [reflexivity|cbn; rewrite IH; reflexivity]). rewrite B, A. reflexivity.
Qed.
Lemma doc_add_sound h i l hs h' r : doc_add_keys horder rorder h i l hs = (h', r) -> keys_sound h -> keys_sound h'.
Proof.
  unfold doc_add_keys. destruct l as [|a l]; [intros Q; injection Q as <- <-; auto|]. destruct (cgka_of h i) as [c|] eqn:Ec; [|intros Q; injection Q as <- <-; auto].
  destruct (add_keys _ _ _ _ _) as [c1 r1] eqn:E. intros Q S. injection Q as <- <-. apply put_sound; [exact S|]. eapply add_keys_sound; [exact E|exact (S i c Ec)].
Qed.
Lemma add_to_docs_sound gid who docs : forall h hs h' r, add_to_docs order horder rorder pick h gid who docs hs = (h', r) -> keys_sound h -> keys_sound h'.
Proof.
  induction docs as [|j docs IH]; intros h hs h' r; cbn [add_to_docs]; [intros Q; injection Q as <- <-; auto|]. destruct (h_docs h !! j) as [g|]; [|apply IH]. destruct (negb _); [apply IH|].
  destruct (pick_prekeys _ _ _ _ _) as [l|]; [|intros Q; injection Q as <- <-; auto]. destruct (doc_add_keys _ _ _ _ _ _) as [h1 [ops|e]] eqn:E; intros Q S; pose proof (doc_add_sound _ _ _ _ _ _ E S) as S1; [|injection Q as <- <-; exact S1].
  destruct (add_to_docs _ _ _ _ h1 gid who docs hs) as [h2 [ops'|e]] eqn:E2; injection Q as <- <-; eapply IH; eauto.
Qed.
Lemma remove_from_docs_sound gid ids docs : forall h hs h' r, remove_from_docs order horder rorder h gid ids docs hs = (h', r) -> keys_sound h -> keys_sound h'.
Proof.
  induction docs as [|j docs IH]; intros h hs h' r; cbn [remove_from_docs]; [intros Q; injection Q as <- <-; auto|]. destruct (h_docs h !! j) as [g|]; [|apply IH].
  destruct (caps_of _ _ _) as [caps|]; [|intros Q; injection Q as <- <-; auto]. destruct (bool_decide _); [|apply IH]. cbv zeta. destruct (cgka_of h j) as [c|] eqn:Ec; [|apply IH].
  destruct (try_remove_keys _ _ _ _ _) as [c1 r1] eqn:E. intros Q S. assert (S1 : keys_sound (put_cgka h j c1)) by (apply put_sound; [exact S|eapply try_remove_sound; [exact E|exact (S j c Ec)]]).
  destruct r1 as [ops|e| |]; [|injection Q as <- <-; exact S1..]. destruct (remove_from_docs _ _ _ (put_cgka h j c1) gid ids docs hs) as [h2 [ops'|e]] eqn:E2; injection Q as <- <-; eapply IH; eauto.
Qed.
Lemma merge_op_sound c op c' r : merge_cgka_op horder rorder c op = (c', r) -> (forall d, c = Some d -> sound1 d) -> forall d, c' = Some d -> sound1 d.
Proof.
  unfold merge_cgka_op. destruct c as [c|].
  - destruct (merge_concurrent_operation horder rorder c op) as [c1 r1] eqn:E. intros Q S d Ed. injection Q as <- <-. injection Ed as <-. eapply merge_sound; [exact E|auto].
  - destruct (so_op op) as [id pk ix [|p ps] apk|? ? ? ?|? ? ?]; [|intros Q _ d Ed; injection Q as <- <-; discriminate..].
    destruct (cgka_from_init id pk op) as [c1|e| |] eqn:E0; intros Q _ d Ed; injection Q as <- <-; [|discriminate..]. injection Ed as <-.
    unfold cgka_from_init in E0. apply rbind_ok in E0 as (t & _ & E0). injection E0 as <-. split; cbn.
    + intros x o. destruct (decide (so_hash op = x)) as [<-|N]; [rewrite lookup_insert; intros Q; injection Q as <-; reflexivity|rewrite lookup_insert_ne by exact N; rewrite lookup_empty; discriminate].
    + intros x Hx. assert (x = so_hash op) as -> by set_solver. rewrite lookup_insert. eauto.
Qed.
Lemma invite_sound c op sk c' r : merge_cgka_invite_op horder rorder c op sk = (c', r) -> (forall d, c = Some d -> sound1 d) -> forall d, c' = Some d -> sound1 d.
Proof.
  unfold merge_cgka_invite_op. destruct (so_op op); try (intros Q; injection Q as <- <-; auto; fail).
  destruct c as [c|]; [|intros Q _ d Ed; injection Q as <- <-; discriminate]. destruct (negb _); [intros Q; injection Q as <- <-; auto|].
  intros Q S. eapply merge_op_sound; [exact Q|]. intros d Ed. injection Ed as <-. apply (S c eq_refl).
Qed.
Lemma receive_sound h x h' out : receive h x = (h', out) -> keys_sound h -> keys_sound h'.
Proof.
  destruct x as [o|o|d|r]; cbn [receive_event].
  - unfold receive_key_event. destruct (receive_prekey_op _ _). intros Q. injection Q as <- _. apply same_sound. reflexivity.
  - unfold receive_cgka. destruct (negb _); [intros Q; injection Q as <- <-; auto|]. destruct (h_docs h !! do_doc o) as [g|]; [|intros Q; injection Q as <- <-; auto].
    destruct (doc_receive horder rorder (h_keys h) (h_cg h) o) as [x ok] eqn:D. intros Q S. injection Q as <- _. intros j c Ec. unfold cgka_of in Ec. cbn in Ec.
    destruct (decide (j = do_doc o)) as [->|N]; [|destruct (doc_receive_grew _ _ _ _ _ D) as [A _]; rewrite (A j N) in Ec; exact (S j c Ec)].
    assert (S0 : forall d, cs_docs (h_cg h) !! do_doc o = Some d -> sound1 d) by (intros d Ed; exact (S _ d Ed)). clear S.
    change (sound1 c). revert D Ec. unfold doc_receive. cbv zeta.
    assert (P : forall q x, (forall d, q = Some d -> sound1 d) -> match q with Some c => Cgs (cs_pairs (h_cg h)) (<[do_doc o := c]> (cs_docs (h_cg h))) | None => h_cg h end = x -> cs_docs x !! do_doc o = Some c -> sound1 c).
    { intros [q|] y Sq <- Ec; [cbn in Ec; rewrite lookup_insert in Ec; injection Ec as <-; auto|auto]. }
    destruct (so_op (do_op o)) as [id pk ix preds apk|? ? ? ?|? ? ?].
    2-3: destruct (merge_cgka_op _ _ _ _) as [q r] eqn:E; intros D Ec; injection D as <- <-; eapply P; [eapply merge_op_sound; [exact E|exact S0]|reflexivity|exact Ec].
    destruct (id =? ks_active (h_keys h)).
    + destruct (cs_pairs (h_cg h) !! pk) as [sk|]; [|intros D Ec; injection D as <- <-; exact (S0 c Ec)].
      destruct (merge_cgka_invite_op _ _ _ _ _) as [q r] eqn:E; intros D Ec; injection D as <- <-; eapply P; [eapply invite_sound; [exact E|exact S0]|reflexivity|exact Ec].
    + destruct (id =? ks_public (h_keys h)).
      * destruct (merge_cgka_invite_op _ _ _ _ _) as [q r] eqn:E. pose proof (invite_sound _ _ _ _ _ E S0) as S1.
        destruct r as [b|e| |]; [|intros D Ec; injection D as <- <-; eapply P; [exact S1|reflexivity|exact Ec]..].
        destruct (reset_cgka_owner q (ks_active (h_keys h))) as [q1 r1] eqn:R. intros D Ec. injection D as <- <-. eapply P; [|reflexivity|exact Ec].
        intros d Ed. destruct q as [q|]; cbn in R; injection R as <- <-; [|discriminate]. injection Ed as <-. exact (S1 q eq_refl).
      * destruct (merge_cgka_op _ _ _ _) as [q r] eqn:E; intros D Ec; injection D as <- <-; eapply P; [eapply merge_op_sound; [exact E|exact S0]|reflexivity|exact Ec].
  - unfold receive_dlg. intros Q S. eapply same_sound; [|exact S]. destruct (bool_decide _); [injection Q as <- _; reflexivity|]. destruct (negb _); [injection Q as <- _; reflexivity|]. destruct (resolve_dlg h d) as [er|d0]; [injection Q as <- _; reflexivity|]. cbv zeta in Q.
    destruct (h_groups h !! d_subject d0) as [g|].
    + destruct (delegation_hangs _ _ _ _); [injection Q as <- _; reflexivity|]. destruct (receive_delegation _ _ _ _); injection Q as <- _; reflexivity.
    + destruct (h_docs h !! d_subject d0) as [g|].
      * destruct (delegation_hangs _ _ _ _); [injection Q as <- _; reflexivity|]. destruct (receive_delegation _ _ _ _); injection Q as <- _; reflexivity.
      * repeat match type of Q with context [match ?b with _ => _ end] => destruct b end; injection Q as <- _; reflexivity.
  - unfold receive_rev. intros Q S. eapply same_sound; [|exact S]. destruct (bool_decide _); [injection Q as <- _; reflexivity|]. destruct (negb _); [injection Q as <- _; reflexivity|]. destruct (resolve_rev h r) as [er|d0]; [injection Q as <- _; reflexivity|]. cbv zeta in Q.
    destruct (h_groups h !! r_subject d0) as [g|].
    + destruct (revocation_hangs _ _ _ _); [injection Q as <- _; reflexivity|]. destruct (receive_revocation _ _ _ _); injection Q as <- _; reflexivity.
    + destruct (h_docs h !! r_subject d0) as [g|].
      * destruct (revocation_hangs _ _ _ _); [injection Q as <- _; reflexivity|]. destruct (receive_revocation _ _ _ _); injection Q as <- _; reflexivity.
      * destruct (ks_indies _ !! _); [|injection Q as <- _; reflexivity]. destruct (promotion_panics _ _); [injection Q as <- _; reflexivity|]. destruct (new_group _ _); [|injection Q as <- _; reflexivity].
        destruct (revocation_hangs _ _ _ _); [injection Q as <- _; reflexivity|]. destruct (receive_revocation _ _ _ _); injection Q as <- _; reflexivity.
Qed.
Lemma acting_sound h : acting order horder rorder pick doc_content h -> keys_sound h.
Proof.
  induction 1 as [h _ _ E|h i ps content h' r _ S E|h i ps content sk h0 hs hu rng h' r _ S E|h i who can content s hs h' r _ S E|h i target retain content sigs hs h' r _ S E|h j sk x rng h' r _ S E|h j ref content preds sk x rng h' r _ S E|h j e h' r _ S E|h x h' r _ S E].
  - intros j c Ec. unfold cgka_of in Ec. rewrite E, lookup_empty in Ec. discriminate.
  - unfold hive_generate_group in E. destruct (generate_group _ _ _ _) as [g|]; injection E as <- _; [|exact S]. eapply same_sound; [rewrite made_cg; reflexivity|exact S].
  - unfold hive_generate_doc in E. destruct (generate_group _ _ _ _) as [g|]; [|injection E as <- _; exact S]. destruct (prekey_individuals _ _ _ _ _); [|injection E as <- _; exact S].
    destruct (cgka_from_init _ _ _) as [c0| | |] eqn:E0; [|injection E as <- _; exact S..]. cbv zeta in E.
    destruct (add_keys _ _ _ _ _) as [c1 [o1| | |]] eqn:E1; [|injection E as <- _; exact S..]. destruct (cgka_update _ _ _ _ _ _) as [c2 [[[k op] rest]| | |]] eqn:E2; [|injection E as <- _; exact S..]. injection E as <- _.
    apply put_sound; [eapply same_sound; [rewrite made_cg; reflexivity|exact S]|]. eapply update_sound; [exact E2|]. eapply add_keys_sound; [exact E1|].
    assert (Q : merge_cgka_op horder rorder None (SignedOp h0 (init_add i (pub sk))) = (Some c0, Ok true)) by (unfold merge_cgka_op; cbn [so_op init_add]; rewrite E0; reflexivity).
    pose proof (merge_op_sound _ _ _ _ Q (fun d X => ltac:(discriminate X)) c0 eq_refl) as S0. exact S0.
  - unfold hive_add_member in E. destruct (any_loop _ _); [injection E as <- _; exact S|].
    destruct (h_groups h !! i) as [g|].
    + destruct (add_member _ _ _ _ _ _ _ _) as [[g' d']|]; [|injection E as <- _; exact S]. cbv zeta in E. set (w := put_made _ _ _) in E. assert (Sw : keys_sound w) by (eapply same_sound; [unfold w; rewrite made_cg; reflexivity|exact S]). clearbody w.
      destruct (_ || _); [injection E as <- _; exact Sw|]. destruct (is_reader can); [|injection E as <- _; exact Sw].
      destruct (add_to_docs _ _ _ _ _ _ _ _ _) as [h2 [ops2|]] eqn:Q; injection E as <- _; eapply add_to_docs_sound; eauto.
    + destruct (h_docs h !! i) as [g|]; [|injection E as <- _; exact S]. destruct (add_member _ _ _ _ _ _ _ _) as [[g' d']|]; [|injection E as <- _; exact S]. cbv zeta in E. set (w := put_made _ _ _) in E. assert (Sw : keys_sound w) by (eapply same_sound; [unfold w; rewrite made_cg; reflexivity|exact S]). clearbody w.
      destruct (_ || _); [injection E as <- _; exact Sw|]. destruct (is_reader can); [|injection E as <- _; exact Sw].
      destruct (pick_prekeys _ _ _ _ _) as [l|]; [|injection E as <- _; exact Sw]. destruct (doc_add_keys _ _ _ _ _ _) as [h2 [ops2|]] eqn:Q; injection E as <- _; eapply doc_add_sound; eauto.
  - unfold hive_revoke_member in E. destruct (any_loop _ _); [injection E as <- _; exact S|].
    destruct (h_groups h !! i) as [g|].
    + destruct (behind _ _ _) as [ids|]; [|injection E as <- _; exact S]. destruct (revoke_member _ _ _ _ _ _ _ _) as [[[g' rs'] ds']|]; [|injection E as <- _; exact S]. destruct (revoking_hangs _ _ _ _ _); [injection E as <- _; exact S|]. cbv zeta in E.
      set (w := put_made _ _ _) in E. assert (Sw : keys_sound w) by (eapply same_sound; [unfold w; rewrite made_cg; reflexivity|exact S]). clearbody w.
      destruct (bool_decide _); [injection E as <- _; exact Sw|]. destruct (remove_from_docs _ _ _ _ _ _ _ _) as [h2 [ops2|]] eqn:Q; injection E as <- _; eapply remove_from_docs_sound; eauto.
    + destruct (h_docs h !! i) as [g|]; [|injection E as <- _; exact S].
      destruct (behind _ _ _) as [ids|]; [|injection E as <- _; exact S]. destruct (revoke_member _ _ _ _ _ _ _ _) as [[[g' rs'] ds']|]; [|injection E as <- _; exact S]. destruct (revoking_hangs _ _ _ _ _); [injection E as <- _; exact S|]. cbv zeta in E.
      set (w := put_made _ _ _) in E. assert (Sw : keys_sound w) by (eapply same_sound; [unfold w; rewrite made_cg; reflexivity|exact S]). clearbody w.
      destruct (group_individual_ids _ _ _) as [still|]; [|injection E as <- _; exact Sw]. destruct (order (ids ∖ still)) as [|z zs]; [injection E as <- _; exact Sw|].
      destruct (cgka_of w i) as [c|] eqn:Ec; [|injection E as <- _; exact Sw]. destruct (remove_keys _ _ _ _ _) as [c1 r1] eqn:Q. assert (S1 : keys_sound (put_cgka w i c1)) by (apply put_sound; [exact Sw|eapply remove_keys_sound; [exact Q|exact (Sw i c Ec)]]).
      destruct r1; injection E as <- _; exact S1.
  - unfold hive_update in E. destruct (cgka_of h j) as [c|] eqn:Ec; [|injection E as <- _; exact S]. destruct (cgka_update _ _ _ _ _ _) as [c1 r1] eqn:Q. injection E as <- _. apply put_sound; [exact S|eapply update_sound; [exact Q|exact (S j c Ec)]].
  - unfold hive_encrypt in E. destruct (cgka_of h j) as [c|] eqn:Ec; [|injection E as <- _; exact S]. destruct (new_app_secret_for _ _ _ _ _ _ _ _ _) as [c1 r1] eqn:Q. injection E as <- _. apply put_sound; [exact S|eapply app_secret_sound; [exact Q|exact (S j c Ec)]].
  - unfold hive_decrypt in E. destruct (cgka_of h j) as [c|] eqn:Ec; [|injection E as <- _; exact S]. destruct (decryption_key_for _ _ _) as [c1 r1] eqn:Q. assert (S1 : keys_sound (put_cgka h j c1)) by (apply put_sound; [exact S|eapply sound1_eq; [eapply decryption_graph; exact Q|exact (S j c Ec)]]).
    destruct r1; injection E as <- _; exact S1.
  - eapply receive_sound; eauto.
Qed.
End received.
