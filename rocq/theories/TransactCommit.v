(** What a transaction that ends well has done. *)
From Coq Require Import Arith Lia.
From stdpp Require Import base list gmap relations.
From Verif Require Import ResModel KeysModel TreeModel OpsModel CgkaModel.
From Verif Require Import AccessModel GroupModel CgkaSpec GroupSpec GroupProofs GroupReplay GroupMembers GroupHistory GroupTransitive GroupPropsProofs PrekeyModel HiveModel HiveSpec HiveProofs SyncModel ArchiveModel ArchiveSpec ArchiveProofs.
From Verif Require Import DocModel DocSpec DocProofs TransactModel TransactSpec TransactLocal.

Section commit.
Context (order : gset nat -> list nat) (Hord : some_order order) (horder : gset digest -> list digest) (rorder : gset (member_id * nat) -> list (member_id * nat)).
Context (pick : ident -> ident -> share_key) (doc_content : nat -> ident -> bool).
Notation receive := (receive_event order doc_content do_doc do_ok (doc_receive horder rorder)).
Notation replay := (replay order horder rorder doc_content).
Notation run_call := (run_call order horder rorder pick doc_content).
Notation run_calls := (run_calls order horder rorder pick doc_content).
Notation take := (take order).

(** ** Groups whose operations the client has *)

Record stock (P : mop -> Prop) (g : group) : Prop := {
  so_filed : filed g;
  so_heads : forall o, is_head g o -> P o;
  so_members : forall j l, gr_members g !! j = Some l -> l <> [] /\ forall d, d ∈ l -> P (MD d);
  so_roots : forall d, is_head g (MD d) -> d_proof d = None -> d_issuer d = gr_id g
}.
Lemma stock_mono (P Q : mop -> Prop) g : (forall o, P o -> Q o) -> stock P g -> stock Q g.
Proof. intros S [A B C D]. constructor; [exact A|auto| |exact D]. intros j l E. destruct (C j l E). split; auto. Qed.
Lemma stock_forget P g g' : forget_group g = forget_group g' -> stock P g -> stock P g'.
Proof.
  unfold forget_group. intros E [A B C D]. injection E as E0 E1 E2 E3. unfold filed, is_head in *. constructor.
  - unfold filed. rewrite <- E1, <- E2. exact A.
  - intros o H. apply B. unfold is_head in *. rewrite E1, E2. exact H.
  - rewrite <- E3. exact C.
  - rewrite <- E0. intros d H. apply D. rewrite E1. exact H.
Qed.
Lemma rebuild_stock (P : mop -> Prop) g g' : closed P -> genuine P -> filed g -> (forall o, is_head g o -> P o) -> (forall d, is_head g (MD d) -> d_proof d = None -> d_issuer d = gr_id g) -> rebuild order g = Some g' -> stock P g'.
Proof.
  intros C U F H Rt R. destruct (rebuild_keeps _ _ _ R) as (_ & E1 & E2).
  assert (K : forall o, known g o -> P o).
  { intros o (x & Hx & D). apply H in Hx. clear -C Hx D. induction D as [|x y z D _ IH]; [exact Hx|]. apply IH. eapply C; eauto. }
  assert (Ug : genuine (known g)) by (intros a b A B; apply U; auto).
  destruct (rebuild_play order Hord g F Ug) as (ops & s & Ho & Ep & Pl & Er). rewrite R in Er. injection Er as ->.
  destruct (replay_split order Hord g ops F Ug Ho) as (Ko & _).
  constructor.
  - exact F.
  - intros o Hx. apply H. exact Hx.
  - cbn. intros j l L. destruct (pl_wf _ _ _ Pl _ _ L) as [N _]. split; [exact N|]. intros d Hd. apply K, Ko. apply (pl_has _ _ _ Pl). eapply wf_has; [apply Pl|exact L|exact Hd].
  - exact Rt.
Qed.
Lemma dhead_sub heads d x y : insert_dhead order heads d !! x = Some y -> (y = d /\ x = d_sig d) \/ heads !! x = Some y.
Proof.
  unfold insert_dhead. generalize (omap (heads !!.) (order (dom heads))). intros L. revert heads. induction L as [|h L IH]; intros heads E; cbn [foldl] in E; [auto|].
  apply IH in E as [E|E]; [auto|]. change (head_step d heads h !! x = Some y) in E. rewrite head_step_lookup in E.
  destruct (is_ancestor_of h d && (d_sig h =? x)); [discriminate|]. destruct (negb (is_ancestor_of d h) && (d_sig d =? x)) eqn:B; [|auto].
  injection E as <-. apply andb_true_iff in B as [_ B]. apply Nat.eqb_eq in B. auto.
Qed.
Lemma take_inv e g o g1 : take e g o = GOk g1 -> op_subject o = gr_id g /\ exists g0, gr_id g0 = gr_id g /\ rebuild order g0 = Some g1 /\
  match o with
  | MD d => g0 = Group (gr_id g) (insert_dhead order (gr_dheads g) d) (drop_rheads (gr_rheads g) d) (gr_members g) (gr_active g) /\ (d_proof d = None -> d_issuer d = gr_id g)
  | MR r => g0 = Group (gr_id g) (gr_dheads g) (<[r_sig r := r]> (gr_rheads g)) (gr_members g) (gr_active g)
  end.
Proof.
  destruct o as [d|r]; cbn [TransactLocal.take op_subject].
  - unfold receive_delegation, add_delegation. destruct (Nat.eqb_spec (d_subject d) (gr_id g)) as [E|]; cbn [negb]; [|discriminate].
    destruct (match d_proof d with Some _ => _ | None => _ end) eqn:B; [discriminate|]. destruct (check_chain _ _ _ _ _); [discriminate|]. cbn [rebuilt].
    destruct (rebuild order _) as [g2|] eqn:R; [|discriminate]. intros [= <-]. split; [exact E|]. eexists. split; [|split; [exact R|split; [reflexivity|]]]; [reflexivity|].
    intros N. rewrite N in B. apply negb_false_iff, Nat.eqb_eq in B. exact B.
  - unfold receive_revocation, add_revocation. destruct (Nat.eqb_spec (r_subject r) (gr_id g)) as [E|]; cbn [negb]; [|discriminate].
    match goal with |- context [match ?m with Some er => GErr er | None => _ end] => destruct m; [discriminate|] end. cbn [rebuilt].
    destruct (rebuild order _) as [g2|] eqn:R; [|discriminate]. intros [= <-]. split; [exact E|]. eexists. split; [|split; [exact R|reflexivity]]. reflexivity.
Qed.
Lemma take_det e e' g o a b : take e g o = GOk a -> take e' g o = GOk b -> a = b.
Proof.
  intros A B. apply take_inv in A as (_ & g0 & _ & R & E). apply take_inv in B as (_ & g0' & _ & R' & E').
  destruct o; [destruct E as [E _], E' as [E' _]|]; subst g0 g0'; congruence.
Qed.
Lemma take_stock (P : mop -> Prop) e g o g1 : closed P -> genuine P -> P o -> stock P g -> take e g o = GOk g1 -> stock P g1.
Proof.
  intros C U Po [F H M Rt] T. apply take_inv in T as (_ & g0 & E0 & R & E). eapply rebuild_stock; [exact C|exact U| | | |exact R].
  - destruct o as [d|r]; [destruct E as [E _]|]; subst g0; destruct F as [F1 F2]; split; cbn.
    + intros s x Q. apply dhead_sub in Q as [[-> ->]|Q]; [reflexivity|apply F1, Q].
    + intros s x Q. unfold drop_rheads in Q. apply map_filter_lookup_Some in Q as [Q _]. apply F2, Q.
    + exact F1.
    + intros s x Q. apply lookup_insert_Some in Q as [[<- <-]|[_ Q]]; [reflexivity|apply F2, Q].
  - intros x Hx. destruct o as [d|r]; [destruct E as [E _]|]; subst g0; destruct x as [x|x]; unfold is_head in Hx; cbn in Hx.
    + apply dhead_sub in Hx as [[-> _]|Hx]; [exact Po|apply (H (MD x)), Hx].
    + unfold drop_rheads in Hx. apply map_filter_lookup_Some in Hx as [Hx _]. apply (H (MR x)), Hx.
    + apply (H (MD x)), Hx.
    + apply lookup_insert_Some in Hx as [[_ <-]|[_ Hx]]; [exact Po|apply (H (MR x)), Hx].
  - rewrite E0. intros x Hx N. destruct o as [d|r]; [destruct E as [E Ed]|]; subst g0; unfold is_head in Hx; cbn in Hx; [|apply Rt; assumption].
    apply dhead_sub in Hx as [[-> _]|Hx]; [apply Ed, N|apply Rt; assumption].
Qed.

(** ** Clients that have what they refer to *)

Record stocked (h : client) : Prop := {
  sk_dlgs : forall s d, h_dlgs h !! s = Some d -> d_sig d = s;
  sk_revs : forall s r, h_revs h !! s = Some r -> r_sig r = s;
  sk_gen : genuine (has_op h);
  sk_closed : closed (has_op h);
  sk_named : filed_right h;
  sk_groups : forall i g, has_group h i g -> stock (has_op h) g
}.
Definition put_op (h : client) (o : mop) : client := match o with MD d => put_dlg h d | MR r => put_rev h r end.
Definition put_slot (b : bool) (h : client) (i : ident) (g : group) : client := if b then put_doc h i g else put_group h i g.
(** The group (or, if there is none, the document) [i]. *)
Definition slot (h : client) (b : bool) (i : ident) (g : group) : Prop := if b then h_groups h !! i = None /\ h_docs h !! i = Some g else h_groups h !! i = Some g.
Definition unsigned (h : client) (s : sig) : Prop := h_dlgs h !! s = None /\ h_revs h !! s = None.

Lemma has_put (h : client) o x : unsigned h (op_sig o) -> (has_op (put_op h o) x <-> has_op h x \/ x = o).
Proof.
  intros [F1 F2]. destruct o as [d|r], x as [y|y]; cbn in *.
  - split.
    + intros E. apply lookup_insert_Some in E as [[_ <-]|[_ E]]; auto.
    + intros [E|E]; [|injection E as ->; apply lookup_insert]. rewrite lookup_insert_ne; [exact E|]. intros Q. congruence.
  - split; [auto|]. intros [E|E]; [exact E|discriminate].
  - split; [auto|]. intros [E|E]; [exact E|discriminate].
  - split.
    + intros E. apply lookup_insert_Some in E as [[_ <-]|[_ E]]; auto.
    + intros [E|E]; [|injection E as ->; apply lookup_insert]. rewrite lookup_insert_ne; [exact E|]. intros Q. congruence.
Qed.
Lemma has_unsigned (h : client) o x : unsigned h (op_sig o) -> has_op h x -> op_sig x <> op_sig o.
Proof. intros [F1 F2] H E. destruct x as [d|r]; cbn in *; rewrite E in H; congruence. Qed.
Lemma slot_has h b i g : slot h b i g -> has_group h i g.
Proof. destruct b; cbn; [intros [_ H]; right; exact H|left; assumption]. Qed.
Lemma put_has h b i g j g' : has_group (put_slot b h i g) j g' -> (j = i /\ g' = g) \/ has_group h j g'.
Proof.
  destruct b; unfold has_group; cbn; intros [E|E]; auto; apply lookup_insert_Some in E as [[-> ->]|[_ E]]; auto.
Qed.
Lemma put_op_group h o : h_groups (put_op h o) = h_groups h /\ h_docs (put_op h o) = h_docs h /\ h_keys (put_op h o) = h_keys h /\ h_cg (put_op h o) = h_cg h.
Proof. destruct o; repeat split. Qed.
Lemma put_slot_ops b h i g : h_dlgs (put_slot b h i g) = h_dlgs h /\ h_revs (put_slot b h i g) = h_revs h /\ h_keys (put_slot b h i g) = h_keys h /\ h_cg (put_slot b h i g) = h_cg h.
Proof. destruct b; repeat split. Qed.
Lemma put_slot_has b h i g x : has_op (put_slot b h i g) x <-> has_op h x.
Proof. destruct b, x; reflexivity. Qed.
Lemma slot_put b h i g g1 o : slot h b i g -> slot (put_op (put_slot b h i g1) o) b i g1.
Proof.
  destruct b, o; cbn; try (intros _; apply lookup_insert); intros [A _]; (split; [exact A|apply lookup_insert]).
Qed.
Lemma unsigned_put_slot b h i g s : unsigned h s -> unsigned (put_slot b h i g) s.
Proof. destruct b; exact id. Qed.

Lemma hear_stocked h b i g e o g1 : stocked h -> slot h b i g -> (forall p, p ∈ parents o -> has_op h p) -> unsigned h (op_sig o) -> take e g o = GOk g1 ->
  stocked (put_op (put_slot b h i g1) o).
Proof.
  intros S Sl Pa Un T. set (h1 := put_slot b h i g1). assert (U1 : unsigned h1 (op_sig o)) by (apply unsigned_put_slot, Un).
  assert (HP : forall x, has_op (put_op h1 o) x <-> has_op h x \/ x = o) by (intros x; rewrite has_put by exact U1; unfold h1; rewrite put_slot_has; reflexivity).
  assert (G : genuine (has_op (put_op h1 o))).
  { intros a c A C E. apply HP in A as [A| ->]; apply HP in C as [C| ->].
    - apply (sk_gen _ S); auto.
    - destruct (has_unsigned _ _ _ Un A E).
    - symmetry in E. destruct (has_unsigned _ _ _ Un C E).
    - reflexivity. }
  assert (C : closed (has_op (put_op h1 o))).
  { intros a p A D. apply HP. left. apply HP in A as [A| ->]; [eapply (sk_closed _ S); eauto|]. apply Pa, D. }
  assert (Eg : gr_id g1 = gr_id g) by (eapply take_id; exact T).
  constructor; try assumption.
  - intros s d E. destruct o as [y|y]; unfold h1 in E; destruct b; cbn in E; try (apply lookup_insert_Some in E as [[<- <-]|[_ E]]; [reflexivity|]); eapply (sk_dlgs _ S); exact E.
  - intros s d E. destruct o as [y|y]; unfold h1 in E; destruct b; cbn in E; try (apply lookup_insert_Some in E as [[<- <-]|[_ E]]; [reflexivity|]); eapply (sk_revs _ S); exact E.
  - intros j gj Hj. assert (Hj' : has_group h1 j gj) by (destruct o; exact Hj). apply put_has in Hj' as [[-> ->]|Hj']; [|apply (sk_named _ S), Hj'].
    rewrite Eg. apply (sk_named _ S). eapply slot_has; exact Sl.
  - intros j gj Hj. assert (Hj' : has_group h1 j gj) by (destruct o; exact Hj). apply put_has in Hj' as [[-> ->]|Hj'].
    + eapply take_stock; [exact C|exact G|apply HP; auto| |exact T]. eapply stock_mono; [|eapply (sk_groups _ S), slot_has, Sl]. intros x Hx. apply HP. auto.
    + eapply stock_mono; [|eapply (sk_groups _ S), Hj']. intros x Hx. apply HP. auto.
Qed.

(** ** Operations made one by one *)

Section at_slot.
Context (b : bool) (i : ident).
Inductive trace : client -> group -> list mop -> client -> group -> Prop :=
| tr_nil f g : trace f g [] f g
| tr_cons f g o g1 l f2 g2 : (exists e, take e g o = GOk g1) -> (forall p, p ∈ parents o -> has_op f p) -> unsigned f (op_sig o) ->
    trace (put_op (put_slot b f i g1) o) g1 l f2 g2 -> trace f g (o :: l) f2 g2.
Lemma trace_app f g l f1 g1 l' f2 g2 : trace f g l f1 g1 -> trace f1 g1 l' f2 g2 -> trace f g (l ++ l') f2 g2.
Proof. induction 1; intros T; [exact T|]. cbn. econstructor; eauto. Qed.
Lemma trace_stocked f g l f2 g2 : trace f g l f2 g2 -> stocked f -> slot f b i g -> stocked f2 /\ slot f2 b i g2.
Proof.
  induction 1 as [f g|f g o g1 l f2 g2 [e T] Pa Un _ IH]; intros S Sl; [auto|]. apply IH; [eapply hear_stocked; eauto|eapply slot_put; exact Sl].
Qed.
Lemma trace_has f g l f2 g2 x : trace f g l f2 g2 -> has_op f x -> has_op f2 x.
Proof.
  induction 1 as [f g|f g o g1 l f2 g2 [e T] Pa Un _ IH]; intros S; [exact S|]. apply IH. apply has_put; [apply unsigned_put_slot, Un|]. left. apply put_slot_has, S.
Qed.
Lemma trace_unsigned f g l f2 g2 s : trace f g l f2 g2 -> s ∉ map op_sig l -> unsigned f s -> unsigned f2 s.
Proof.
  induction 1 as [f g|f g o g1 l f2 g2 [e T] Pa Un _ IH]; intros N U; [exact U|]. cbn in N. apply not_elem_of_cons in N as [N1 N2]. apply IH; [exact N2|].
  destruct o as [d|r], b, U as [U1 U2]; split; cbn in *; try rewrite lookup_insert_ne by congruence; assumption.
Qed.
Definition fresh_list (f : client) (sigs : list sig) : Prop := NoDup sigs /\ forall s, s ∈ sigs -> unsigned f s.
Lemma trace_fresh f g l f2 g2 sigs : trace f g l f2 g2 -> fresh_list f (map op_sig l ++ sigs) -> fresh_list f2 sigs.
Proof.
  intros T [N U]. apply NoDup_app in N as (_ & D & N). split; [exact N|]. intros s Hs. eapply trace_unsigned; [exact T| |apply U, elem_of_app; auto].
  intros Q. apply (D s Q Hs).
Qed.
Lemma trace_form f g l f2 g2 : trace f g l f2 g2 -> slot f b i g -> f2 = foldl put_op (put_slot b f i g2) l.
Proof.
  induction 1 as [f g|f g o g1 l f2 g2 T Pa Un _ IH]; intros Sl.
  - cbn. destruct f, b; unfold put_slot, put_doc, put_group; cbn in *; rewrite insert_id; auto; apply Sl.
  - rewrite (IH (slot_put _ _ _ _ _ _ Sl)). cbn [foldl]. f_equal. destruct o, b; unfold put_slot, put_doc, put_group, put_op, put_dlg, put_rev; cbn; rewrite insert_insert; reflexivity.
Qed.
End at_slot.

(** *** The calls of groups *)
Section calls.
Context (e : gmap ident (gmap ident (list dlg))) (b : bool) (i : ident).
Notation trace := (trace b i).
Notation slot f g := (slot f b i g).

Lemma cap_has f g j d : stocked f -> slot f g -> get_capability (gr_members g) j = Some d -> has_op f (MD d).
Proof.
  intros S Sl C. unfold get_capability in C. destruct (gr_members g !! j) as [l|] eqn:L; [|discriminate]. apply best_dlg_in in C.
  destruct (so_members _ _ (sk_groups _ S _ _ (slot_has _ _ _ _ Sl)) _ _ L) as [_ H]. apply H, C.
Qed.
Lemma find_proof_has f g signer can ids best d : stocked f -> slot f g -> find_proof order e (gr_members g) signer can ids best = GOk d -> has_op f (MD d).
Proof.
  intros S Sl. revert best. induction ids as [|j ids IH]; intros best; cbn; [destruct best; discriminate|].
  destruct (get_capability (gr_members g) j) as [c|] eqn:C; [|apply IH]. destruct (e !! d_delegate c) as [sub|]; [|apply IH].
  destruct (transitive_members order e (d_delegate c) sub) as [caps|]; [|discriminate]. destruct (caps !! signer) as [a|]; [|apply IH].
  destruct (ale can a); [|apply IH]. intros [= <-]. eapply cap_has; eauto.
Qed.
Lemma find_revoker_has f g signer can ids d : stocked f -> slot f g -> find_revoker order e (gr_members g) signer can ids = GOk (Some d) -> has_op f (MD d).
Proof.
  intros S Sl. induction ids as [|j ids IH]; cbn; [discriminate|].
  destruct (get_capability (gr_members g) j) as [c|] eqn:C; [|apply IH]. destruct (e !! d_delegate c) as [sub|]; [|apply IH].
  destruct (transitive_members order e (d_delegate c) sub) as [caps|]; [|discriminate]. destruct (caps !! signer) as [a|]; [|apply IH].
  destruct (ale can a); [|apply IH]. intros [= <-]. eapply cap_has; eauto.
Qed.
Lemma add_trace f g who can signer content s sigs g' d : stocked f -> slot f g -> fresh_list f (s :: sigs) -> add_member order e g who can signer content s = GOk (g', d) ->
  d_sig d = s /\ d_delegate d = who /\ exists f', trace f g [MD d] f' g'.
Proof.
  intros S Sl [_ Fr] E. unfold add_member in E. cbv zeta in E.
  match type of E with match ?X with _ => _ end = _ => destruct X as [p|] eqn:Ep end; [|discriminate].
  destruct (receive_delegation _ _ _ _) as [g1|] eqn:R; [|discriminate]. injection E as -> <-. split; [reflexivity|]. split; [reflexivity|].
  eexists. eapply tr_cons; [exists e; exact R| |apply Fr; left|apply tr_nil].
  intros q Hq. cbn in Hq. apply elem_of_app in Hq as [Hq|Hq].
  - destruct p as [p|]; cbn in Hq; [|inversion Hq]. apply elem_of_list_singleton in Hq as ->.
    destruct (gr_id g =? signer); [discriminate|]. destruct (get_capability (gr_members g) signer) as [c|] eqn:C.
    + destruct (alt (d_can c) can); [discriminate|]. injection Ep as <-. eapply cap_has; eauto.
    + destruct (find_proof _ _ _ _ _ _ _) as [c|] eqn:Fp; [|discriminate]. injection Ep as <-. eapply find_proof_has; eauto.
  - apply elem_of_list_fmap in Hq as (r & -> & Hr). apply elem_of_list_omap in Hr as (x & _ & Hr). pose proof (sk_groups _ S _ _ (slot_has _ _ _ _ Sl)) as St.
    apply (so_heads _ _ St (MR r)). cbn. rewrite (proj2 (so_filed _ _ St) _ _ Hr). exact Hr.
Qed.
Lemma one_trace f g signer d proof content sigs g' r sigs' : fresh_list f sigs -> has_op f (MD d) -> (forall p, proof = Some p -> has_op f (MD p)) ->
  revoke_one order e g signer d proof content sigs = GOk (g', r, sigs') -> sigs = r_sig r :: sigs' /\ exists f', trace f g [MR r] f' g'.
Proof.
  intros [_ Fr] Hd Hp E. unfold revoke_one in E. destruct sigs as [|s sigs]; [discriminate|]. cbv zeta in E.
  destruct (receive_revocation _ _ _ _) as [g1|] eqn:R; [|discriminate]. injection E as -> <- <-. split; [reflexivity|].
  eexists. eapply tr_cons; [exists e; exact R| |apply Fr; left|apply tr_nil].
  intros q Hq. cbn in Hq. apply elem_of_cons in Hq as [->|Hq]; [exact Hd|]. destruct proof as [p|]; cbn in Hq; [|inversion Hq]. apply elem_of_list_singleton in Hq as ->. auto.
Qed.
Lemma admin_trace signer target d content mine : forall f g sigs g' rs sigs', stocked f -> slot f g -> fresh_list f sigs ->
  has_op f (MD d) -> (forall m, m ∈ mine -> has_op f (MD m)) ->
  revoke_as_admin order e g signer target d mine content sigs = GOk (g', rs, sigs') ->
  sigs = map r_sig rs ++ sigs' /\ exists f', trace f g (map MR rs) f' g'.
Proof.
  induction mine as [|m mine IH]; intros f g sigs g' rs sigs' S Sl Fr Hd Hm E; cbn in E.
  { injection E as <- <- <-. split; [reflexivity|]. exists f. apply tr_nil. }
  destruct (negb _ || negb _).
  - eapply IH; eauto. intros m' Hm'. apply Hm. right. exact Hm'.
  - destruct (revoke_one _ _ _ _ _ _ _ _) as [[[g1 r1] sg1]|] eqn:R; [|discriminate].
    edestruct (one_trace f g) as (Es & f1 & T1); [exact Fr|exact Hd| |exact R|]; [intros p Q; injection Q as <-; apply Hm; left|].
    destruct (revoke_as_admin _ _ g1 _ _ _ _ _ _) as [[[g2 rs2] sg2]|] eqn:R2; [|discriminate]. injection E as <- <- <-.
    destruct (trace_stocked _ _ _ _ _ _ _ T1 S Sl) as [S1 Sl1]. rewrite Es in Fr.
    destruct (IH f1 g1 sg1 g2 rs2 sg2 S1 Sl1 (trace_fresh _ _ _ _ _ _ _ _ T1 Fr) (trace_has _ _ _ _ _ _ _ _ T1 Hd) (fun m' Hm' => trace_has _ _ _ _ _ _ _ _ T1 (Hm m' (elem_of_list_further _ _ _ Hm'))) R2) as (Es2 & f2 & T2).
    split; [rewrite Es, Es2; reflexivity|]. exists f2. exact (trace_app _ _ _ _ _ _ _ _ _ _ T1 T2).
Qed.
Lemma fresh_sigs_map rs : map op_sig (map MR rs) = map r_sig rs.
Proof. rewrite map_map. reflexivity. Qed.
Lemma delegation_trace signer target d content f g sigs g' rs sigs' : stocked f -> slot f g -> fresh_list f sigs -> has_op f (MD d) ->
  revoke_delegation order e g signer target d content sigs = GOk (g', rs, sigs') ->
  sigs = map r_sig rs ++ sigs' /\ exists f', trace f g (map MR rs) f' g'.
Proof.
  intros S Sl Fr Hd E. unfold revoke_delegation in E.
  destruct (revoke_as_admin _ _ _ _ _ _ _ _ _) as [[[g1 rs1] sg1]|] eqn:R1; [|discriminate].
  edestruct (admin_trace signer target d content) as (Es & f1 & T1); [exact S|exact Sl|exact Fr|exact Hd| |exact R1|].
  { intros m Q. destruct (gr_members g !! signer) as [l|] eqn:L; [|inversion Q]. apply (so_members _ _ (sk_groups _ S _ _ (slot_has _ _ _ _ Sl)) _ _ L). exact Q. }
  destruct (trace_stocked _ _ _ _ _ _ _ T1 S Sl) as [S1 Sl1]. assert (Fr1 : fresh_list f1 sg1) by (eapply trace_fresh; [exact T1|]; rewrite fresh_sigs_map, <- Es; exact Fr).
  pose proof (trace_has _ _ _ _ _ _ _ _ T1 Hd) as Hd1. cbv zeta in E.
  assert (Fin : forall p, has_op f1 (MD p) -> match revoke_one order e g1 signer d (Some p) content sg1 with GErr er => GErr er | GOk (g, r, sigs) => GOk (g, rs1 ++ [r], sigs) end = GOk (g', rs, sigs') ->
    sigs = map r_sig rs ++ sigs' /\ exists f', trace f g (map MR rs) f' g').
  { intros p Hp Q. destruct (revoke_one _ _ _ _ _ _ _ _) as [[[g2 r2] sg2]|] eqn:R2; [|discriminate]. injection Q as <- <- <-.
    edestruct (one_trace f1 g1) as (Es2 & f2 & T2); [exact Fr1|exact Hd1| |exact R2|]; [intros q Q; injection Q as <-; exact Hp|].
    split; [rewrite map_app, <- app_assoc; cbn; rewrite <- Es2; exact Es|]. exists f2. rewrite map_app. exact (trace_app _ _ _ _ _ _ _ _ _ _ T1 T2). }
  match type of E with match ?X with _ => _ end = _ => destruct X as [p|] eqn:Ep end.
  - apply (Fin p); [|exact E]. eapply (lineage_in (has_op f1) (sk_closed _ S1)); [exact Hd1|]. destruct (d_issuer d =? signer); [injection Ep as <-; left|].
    apply List.find_some in Ep as [Ep _]. right. apply elem_of_list_In, Ep.
  - destruct rs1 as [|r1 rs1]; [|injection E as <- <- <-; split; [exact Es|exists f1; exact T1]].
    destruct (find_revoker _ _ _ _ _ _) as [[p|]|] eqn:Fr'; try discriminate. apply (Fin p); [|exact E]. eapply find_revoker_has; eauto.
Qed.
Lemma delegations_trace signer target content l : forall f g sigs g' rs sigs', stocked f -> slot f g -> fresh_list f sigs -> (forall d, d ∈ l -> has_op f (MD d)) ->
  revoke_delegations order e g signer target l content sigs = GOk (g', rs, sigs') ->
  sigs = map r_sig rs ++ sigs' /\ exists f', trace f g (map MR rs) f' g'.
Proof.
  induction l as [|d l IH]; intros f g sigs g' rs sigs' S Sl Fr Hl E; cbn in E.
  { injection E as <- <- <-. split; [reflexivity|]. exists f. apply tr_nil. }
  match type of E with match ?X with _ => _ end = _ => destruct X as [[[g1 rs1] sg1]|] eqn:R1 end; [|discriminate].
  destruct (revoke_delegations _ _ g1 _ _ _ _ _) as [[[g2 rs2] sg2]|] eqn:R2; [|discriminate]. injection E as <- <- <-.
  assert (X : sigs = map r_sig rs1 ++ sg1 /\ exists f1, trace f g (map MR rs1) f1 g1).
  { destruct (signer =? gr_id g); [|eapply delegation_trace; eauto; apply Hl; left].
    destruct (revoke_one _ _ _ _ _ _ _ _) as [[[g3 r3] sg3]|] eqn:R3; [|discriminate]. injection R1 as <- <- <-.
    edestruct (one_trace f g) as (Es & f1 & T1); [exact Fr|apply (Hl d); left| |exact R3|]; [discriminate|]. split; [exact Es|]. exists f1. exact T1. }
  destruct X as (Es & f1 & T1). destruct (trace_stocked _ _ _ _ _ _ _ T1 S Sl) as [S1 Sl1]. assert (Fr1 : fresh_list f1 sg1) by (eapply trace_fresh; [exact T1|]; rewrite fresh_sigs_map, <- Es; exact Fr).
  destruct (IH f1 g1 sg1 g2 rs2 sg2 S1 Sl1 Fr1) as (Es2 & f2 & T2); [intros x Hx; eapply trace_has; [exact T1|]; apply Hl; right; exact Hx|exact R2|].
  split; [rewrite map_app, <- app_assoc, <- Es2; exact Es|]. exists f2. rewrite map_app. exact (trace_app _ _ _ _ _ _ _ _ _ _ T1 T2).
Qed.
Lemma redelegate_trace signer target content l : forall f g sigs g' ns, stocked f -> slot f g -> fresh_list f sigs ->
  redelegate order e g signer target l content sigs = GOk (g', ns) ->
  (forall s, s ∈ map d_sig ns -> s ∈ sigs) /\ (forall d, d ∈ ns -> exists d0, d0 ∈ l /\ d_delegate d = d_delegate d0) /\ exists f', trace f g (map MD ns) f' g'.
Proof.
  induction l as [|d l IH]; intros f g sigs g' ns S Sl Fr E; cbn in E.
  { injection E as <- <-. split; [intros s Q; inversion Q|]. split; [intros d Q; inversion Q|]. exists f. apply tr_nil. }
  match type of E with (if ?b then _ else _) = _ => destruct b end;
    [|destruct (IH _ _ _ _ _ S Sl Fr E) as (A & B & C); split; [exact A|split; [|exact C]]; intros x Hx; destruct (B x Hx) as (d0 & H0 & E0); exists d0; split; [right; exact H0|exact E0]].
  destruct sigs as [|s sigs]; [discriminate|]. destruct (add_member _ _ _ _ _ _ _ _) as [[g1 d1]|] eqn:A; [|discriminate].
  destruct (redelegate _ _ g1 _ _ _ _ _) as [[g2 ns2]|] eqn:R; [|discriminate]. injection E as <- <-.
  destruct (add_trace _ _ _ _ _ _ _ _ _ _ S Sl Fr A) as (Es & Ew & f1 & T1). destruct (trace_stocked _ _ _ _ _ _ _ T1 S Sl) as [S1 Sl1].
  assert (Fr1 : fresh_list f1 sigs) by (eapply trace_fresh; [exact T1|]; cbn; rewrite Es; exact Fr).
  destruct (IH f1 g1 sigs g2 ns2 S1 Sl1 Fr1 R) as (Es2 & Ew2 & f2 & T2). split; [|split].
  - cbn. intros x Hx. apply elem_of_cons in Hx as [->|Hx]; [rewrite Es; left|right; apply Es2, Hx].
  - intros x Hx. apply elem_of_cons in Hx as [->|Hx]; [exists d; split; [left|exact Ew]|]. destruct (Ew2 x Hx) as (d0 & H0 & E0). exists d0. split; [right; exact H0|exact E0].
  - exists f2. exact (trace_app _ _ _ _ _ _ _ _ _ _ T1 T2).
Qed.
Lemma revoke_trace signer target retain content f g sigs g' rs ns : stocked f -> slot f g -> fresh_list f sigs ->
  revoke_member order e g target retain signer content sigs = GOk (g', rs, ns) ->
  (forall s, s ∈ map r_sig rs ++ map d_sig ns -> s ∈ sigs) /\
  (forall d, d ∈ ns -> exists d0, has_op f (MD d0) /\ d_delegate d = d_delegate d0) /\
  exists f1 g1 f', trace f g (map MR rs) f1 g1 /\ trace f1 g1 (map MD ns) f' g'.
Proof.
  intros S Sl Fr E. unfold revoke_member in E. cbv zeta in E. pose proof (sk_groups _ S _ _ (slot_has _ _ _ _ Sl)) as St.
  destruct (gr_members g !! target) as [ds|] eqn:L; cbn [from_option id default] in E.
  - destruct (so_members _ _ St _ _ L) as [Ne Hds]. destruct ds as [|d0 ds]; [contradiction|].
    destruct (revoke_delegations _ _ _ _ _ _ _ _) as [[[g1 rs1] sg1]|] eqn:R; [|discriminate].
    destruct (delegations_trace _ _ _ _ _ _ _ _ _ _ S Sl Fr Hds R) as (Es & f1 & T1). destruct (trace_stocked _ _ _ _ _ _ _ T1 S Sl) as [S1 Sl1].
    assert (Fr1 : fresh_list f1 sg1) by (eapply trace_fresh; [exact T1|]; rewrite fresh_sigs_map, <- Es; exact Fr).
    destruct retain.
    + destruct (redelegate _ _ _ _ _ _ _ _) as [[g2 ns2]|] eqn:R2; [|discriminate]. injection E as <- <- <-.
      destruct (redelegate_trace _ _ _ _ _ _ _ _ _ S1 Sl1 Fr1 R2) as (Es2 & Ew2 & f2 & T2). split; [|split; [|exists f1, g1, f2; auto]].
      * intros s Hs. rewrite Es. apply elem_of_app. apply elem_of_app in Hs as [Hs|Hs]; auto.
      * intros x Hx. destruct (Ew2 x Hx) as (d1 & H1 & E1). exists d1. split; [|exact E1]. apply elem_of_list_In, in_concat in H1 as (y & Hy & H1).
        apply elem_of_list_In, elem_of_list_omap in Hy as (j & _ & Lj). apply (so_members _ _ St _ _ Lj). apply elem_of_list_In, H1.
    + injection E as <- <- <-. split; [|split; [intros x Hx; inversion Hx|exists f1, g1, f1; split; [exact T1|apply tr_nil]]].
      intros s Hs. cbn in Hs. rewrite app_nil_r in Hs. rewrite Es. apply elem_of_app. auto.
  - injection E as <- <- <-. split; [intros s Hs; inversion Hs|]. split; [intros x Hx; inversion Hx|]. exists f, g, f.
    assert (Eg : Group (gr_id g) (gr_dheads g) (gr_rheads g) (delete target (gr_members g)) (gr_active g) = g) by (rewrite delete_notin by exact L; destruct g; reflexivity).
    rewrite Eg. split; apply tr_nil.
Qed.
End calls.

(** ** The same groups *)

Lemma same_refl h : same_groups h h. Proof. repeat split. Qed.
Lemma same_sym h f : same_groups h f -> same_groups f h.
Proof. intros (A & B & C & D). repeat split; symmetry; assumption. Qed.
Lemma same_trans a c d : same_groups a c -> same_groups c d -> same_groups a d.
Proof. intros (A & B & C & D) (A' & B' & C' & D'). repeat split; etransitivity; eassumption. Qed.
Lemma same_has h f o : same_groups h f -> has_op h o <-> has_op f o.
Proof. intros (A & B & _). destruct o; cbn; rewrite ?A, ?B; reflexivity. Qed.
Lemma same_unsigned h f s : same_groups h f -> unsigned h s <-> unsigned f s.
Proof. intros (A & B & _). unfold unsigned. rewrite A, B. reflexivity. Qed.
Lemma fmap_like (m n : gmap ident group) j g : forget_group <$> m = forget_group <$> n -> n !! j = Some g -> exists g', m !! j = Some g' /\ forget_group g' = forget_group g.
Proof.
  intros E L. assert (Q : (forget_group <$> m) !! j = (forget_group <$> n) !! j) by (rewrite E; reflexivity). rewrite !lookup_fmap, L in Q.
  destruct (m !! j) as [g'|]; [|discriminate]. cbn in Q. injection Q as Q0 Q1 Q2 Q3. exists g'. split; [reflexivity|]. unfold forget_group. congruence.
Qed.
Lemma fmap_none (m n : gmap ident group) j : forget_group <$> m = forget_group <$> n -> n !! j = None -> m !! j = None.
Proof.
  intros E L. assert (Q : (forget_group <$> m) !! j = (forget_group <$> n) !! j) by (rewrite E; reflexivity). rewrite !lookup_fmap, L in Q.
  destruct (m !! j) as [g'|]; [discriminate|reflexivity].
Qed.
Lemma same_slot h f b i g : same_groups h f -> slot f b i g -> exists gh, slot h b i gh /\ forget_group gh = forget_group g.
Proof.
  intros (_ & _ & C & D) Sl. destruct b; cbn in *.
  - destruct Sl as [N L]. destruct (fmap_like _ _ _ _ D L) as (g' & L' & E). exists g'. split; [split; [eapply fmap_none; eauto|exact L']|exact E].
  - apply (fmap_like _ _ _ _ C Sl).
Qed.
Lemma same_group h f i g : same_groups h f -> has_group f i g -> exists gh, has_group h i gh /\ forget_group gh = forget_group g.
Proof.
  intros (_ & _ & C & D) [L|L].
  - destruct (fmap_like _ _ _ _ C L) as (g' & L' & E). exists g'. split; [left|]; assumption.
  - destruct (fmap_like _ _ _ _ D L) as (g' & L' & E). exists g'. split; [right|]; assumption.
Qed.
Lemma stocked_same h f : same_groups h f -> stocked h -> stocked f.
Proof.
  intros E S. pose proof E as (A & B & _). constructor.
  - rewrite <- A. apply S.
  - rewrite <- B. apply S.
  - intros a c Ha Hc. apply (sk_gen _ S); eapply same_has; eauto.
  - intros a c Ha D. eapply same_has; [apply same_sym, E|]. eapply (sk_closed _ S); [|exact D]. eapply same_has; eauto.
  - intros i g Hg. destruct (same_group _ _ _ _ E Hg) as (g' & Hg' & F). pose proof (sk_named _ S _ _ Hg') as N. rewrite <- N.
    assert (Q : gr_id (forget_group g') = gr_id (forget_group g)) by (rewrite F; reflexivity). symmetry. exact Q.
  - intros i g Hg. destruct (same_group _ _ _ _ E Hg) as (g' & Hg' & F). eapply stock_forget; [exact F|]. eapply stock_mono; [|apply (sk_groups _ S _ _ Hg')].
    intros o Ho. eapply same_has; [apply same_sym, E|exact Ho].
Qed.
Lemma same_put h f b i g g' o : same_groups h f -> forget_group g = forget_group g' -> same_groups (put_op (put_slot b h i g) o) (put_op (put_slot b f i g') o).
Proof.
  intros (A & B & C & D) E. destruct o, b; repeat split; cbn; try congruence; rewrite !fmap_insert, E; congruence.
Qed.

(** ** Receiving what was made *)

Definition held (h h' : client) : Prop := ks_indies (h_keys h') = ks_indies (h_keys h) /\ cs_pairs (h_cg h') = cs_pairs (h_cg h) /\ me h' = me h.
Lemma held_refl h : held h h. Proof. repeat split. Qed.
Lemma held_trans a c d : held a c -> held c d -> held a d.
Proof. intros (A & B & X) (C & D & Y). repeat split; etransitivity; eassumption. Qed.
Lemma held_put h b i g o : held h (put_op (put_slot b h i g) o).
Proof. destruct o, b; repeat split. Qed.

Lemma resolve_back_dlg (h : client) d d' : (forall p, p ∈ parents (MD d) -> has_op h p) ->
  resolve_dlg h (SDlg (d_sig d) (d_issuer d) (d_delegate d) (d_can d) (d_sig <$> d_proof d) (r_sig <$> d_after d) (d_content d) true) = inr d' -> d' = d.
Proof.
  intros Pa R. cbn in Pa. destruct (known_agent h (d_delegate d)) eqn:K.
  - rewrite (resolve_dlg_all h _ (d_proof d) (d_after d)) in R; try reflexivity; [injection R as <-; destruct d; reflexivity| | |exact K].
    + intros q E. apply Pa. rewrite E. cbn. left.
    + intros r Hr. apply Pa. apply elem_of_app. right. apply elem_of_list_fmap. eauto.
  - unfold resolve_dlg in R. cbn [sd_proof sd_delegate] in R. destruct (find_proof_dlg _ _); [discriminate|]. rewrite K in R. discriminate.
Qed.
Lemma sim_hear h f b i g e o g1 h1 out : stocked f -> slot f b i g -> (forall p, p ∈ parents o -> has_op f p) -> unsigned f (op_sig o) -> take e g o = GOk g1 ->
  same_groups h f -> receive h (static_of o) = (h1, out) -> out = HDone -> same_groups h1 (put_op (put_slot b f i g1) o) /\ held h h1.
Proof.
  intros S Sl Pa [U1 U2] T Sg R ->. pose proof Sg as (Ed & Er & _).
  destruct (same_slot _ _ _ _ _ Sg Sl) as (gh & Slh & Eg). assert (Sub : op_subject o = i) by (rewrite (proj1 (take_inv _ _ _ _ T)); apply (sk_named _ S), (slot_has _ _ _ _ Sl)).
  assert (Pah : forall p, p ∈ parents o -> has_op h p) by (intros p Hp; eapply same_has; [exact Sg|auto]).
  assert (Fin : forall g2, take (h_env h) gh o = GOk g2 -> h1 = put_op (put_slot b h i g2) o -> same_groups h1 (put_op (put_slot b f i g1) o) /\ held h h1).
  { intros g2 T2 ->. split; [|apply held_put]. apply same_put; [exact Sg|]. rewrite (take_like _ _ _ g o Eg) in T2. rewrite (take_det _ _ _ _ _ _ T T2). reflexivity. }
  destruct o as [d|r]; cbn [static_of receive_event] in R; cbn [op_sig op_subject] in *.
  - unfold receive_dlg in R. cbn [sd_sig sd_ok sd_content] in R. rewrite Ed, U1 in R. rewrite bool_decide_eq_false_2 in R by (intros [? Q]; discriminate). cbn [negb] in R.
    destruct (resolve_dlg _ _) as [|d'] eqn:Rs; [discriminate|]. apply resolve_back_dlg in Rs as ->; [|exact Pah]. cbv zeta in R. rewrite Sub in R.
    destruct b; cbn in Slh.
    + destruct Slh as [N L]. rewrite N, L in R. destruct (delegation_hangs _ _ _ _); [discriminate|]. destruct (receive_delegation _ _ _ _) as [g2|] eqn:T2; [|discriminate].
      injection R as <-. apply (Fin g2); [exact T2|reflexivity].
    + rewrite Slh in R. destruct (delegation_hangs _ _ _ _); [discriminate|]. destruct (receive_delegation _ _ _ _) as [g2|] eqn:T2; [|discriminate].
      injection R as <-. apply (Fin g2); [exact T2|reflexivity].
  - unfold receive_rev in R. cbn [sr_sig sr_ok] in R. rewrite Er, U2 in R. rewrite bool_decide_eq_false_2 in R by (intros [? Q]; discriminate). cbn [negb] in R. cbn in Pah.
    rewrite (resolve_rev_all h _ (r_revoke r) (r_proof r)) in R; try reflexivity; [|apply Pah; left|intros q E; apply Pah; rewrite E; cbn; right; left].
    assert (Eq : rev_of (SRev (r_sig r) (r_issuer r) (d_sig (r_revoke r)) (d_sig <$> r_proof r) (r_content r) true) (r_revoke r) (r_proof r) = r) by (destruct r; reflexivity).
    rewrite Eq in R. cbv zeta in R. rewrite Sub in R.
    destruct b; cbn in Slh.
    + destruct Slh as [N L]. rewrite N, L in R. destruct (revocation_hangs _ _ _ _); [discriminate|]. destruct (receive_revocation _ _ _ _) as [g2|] eqn:T2; [|discriminate].
      injection R as <-. apply (Fin g2); [exact T2|reflexivity].
    + rewrite Slh in R. destruct (revocation_hangs _ _ _ _); [discriminate|]. destruct (receive_revocation _ _ _ _) as [g2|] eqn:T2; [|discriminate].
      injection R as <-. apply (Fin g2); [exact T2|reflexivity].
Qed.
Lemma replay_static h o rest hz : replay h (static_of o :: rest) = ADone hz -> exists h1, receive h (static_of o) = (h1, HDone) /\ replay h1 rest = ADone hz.
Proof.
  intros R. cbn [TransactModel.replay] in R. destruct o as [d|r]; cbn [static_of] in *.
  - destruct (receive h (EDlg _)) as [h1 out] eqn:E. destruct out; try discriminate. exists h1. auto.
  - destruct (receive h (ERev _)) as [h1 out] eqn:E. destruct out; try discriminate. exists h1. auto.
Qed.
Lemma sim_trace b i f g l f2 g2 : trace b i f g l f2 g2 -> forall h rest hz, stocked f -> slot f b i g -> same_groups h f ->
  replay h (map static_of l ++ rest) = ADone hz -> exists h2, same_groups h2 f2 /\ held h h2 /\ replay h2 rest = ADone hz.
Proof.
  induction 1 as [f g|f g o g1 l f2 g2 [e T] Pa Un _ IH]; intros h rest hz S Sl Sg R.
  { exists h. split; [exact Sg|]. split; [apply held_refl|exact R]. }
  cbn [map app] in R. apply replay_static in R as (h1 & R1 & R).
  destruct (sim_hear _ _ _ _ _ _ _ _ _ _ S Sl Pa Un T Sg R1 eq_refl) as [Sg1 He].
  destruct (IH h1 rest hz (hear_stocked _ _ _ _ _ _ _ S Sl Pa Un T) (slot_put _ _ _ _ _ _ Sl) Sg1 R) as (h2 & A & B & C).
  exists h2. split; [exact A|]. split; [eapply held_trans; eauto|exact C].
Qed.
Lemma trace_got b i f g l f2 g2 o : trace b i f g l f2 g2 -> o ∈ l -> has_op f2 o.
Proof.
  induction 1 as [f g|f g p g1 l f2 g2 T Pa Un Tr IH]; intros H; [inversion H|]. apply elem_of_cons in H as [->|H]; [|apply IH, H].
  eapply trace_has; [exact Tr|]. apply has_put; [apply unsigned_put_slot, Un|]. right. reflexivity.
Qed.
Lemma replay_again h rs rest hz : (forall r, r ∈ rs -> has_op h (MR r)) -> replay h (map static_of (map MR rs) ++ rest) = ADone hz -> replay h rest = ADone hz.
Proof.
  induction rs as [|r rs IH]; intros H R; [exact R|]. cbn [map app] in R. apply replay_static in R as (h1 & R1 & R). cbn [static_of receive_event] in R1. unfold receive_rev in R1. cbn [sr_sig] in R1.
  rewrite (H r (elem_of_list_here _ _) : h_revs h !! r_sig r = Some r) in R1. rewrite bool_decide_eq_true_2 in R1 by eauto. injection R1 as <-.
  apply IH; [|exact R]. intros x Hx. apply H. right. exact Hx.
Qed.
Lemma pairs_receive k x o : cs_pairs (doc_receive horder rorder k x o).1 = cs_pairs x.
Proof.
  unfold doc_receive. assert (P : forall c, cs_pairs (match c with Some c => Cgs (cs_pairs x) (<[do_doc o := c]> (cs_docs x)) | None => x end) = cs_pairs x) by (intros []; reflexivity).
  assert (Q : cs_pairs (match merge_cgka_op horder rorder (cs_docs x !! do_doc o) (do_op o) with (c, r) => (match c with Some c => Cgs (cs_pairs x) (<[do_doc o := c]> (cs_docs x)) | None => x end, match r with Ok _ => true | _ => false end) end).1 = cs_pairs x)
    by (destruct (merge_cgka_op _ _ _ _); apply P).
  destruct (so_op (do_op o)) as [id pk ? ? ?|? ? ? ?|? ? ?]; try exact Q. destruct (id =? ks_active k).
  - destruct (cs_pairs x !! pk); [|reflexivity]. destruct (merge_cgka_invite_op _ _ _ _ _). apply P.
  - destruct (id =? ks_public k); [|exact Q]. destruct (merge_cgka_invite_op _ _ _ _ _) as [c [| | |]]; try apply P. destruct (reset_cgka_owner _ _). apply P.
Qed.
(** Operations of group keys and prekeys. *)
Definition side (x : sevent dop) : Prop := match x with EKey _ | ECgka _ => True | _ => False end.
Lemma sim_side l : forall h f rest hz, (forall x, x ∈ l -> side x) -> same_groups h f -> replay h (l ++ rest) = ADone hz -> exists h2, same_groups h2 f /\ held h h2 /\ replay h2 rest = ADone hz.
Proof.
  induction l as [|x l IH]; intros h f rest hz H Sg R.
  { exists h. split; [exact Sg|]. split; [apply held_refl|exact R]. }
  pose proof (H x (elem_of_list_here _ _)) as Sx. assert (Hl : forall y, y ∈ l -> side y) by (intros y Hy; apply H; right; exact Hy).
  destruct x as [o|o|d|r]; cbn [side] in Sx; try contradiction; cbn [app TransactModel.replay] in R; [eapply IH; eauto|].
  destruct (receive h (ECgka o)) as [h1 out] eqn:E. assert (out = HDone) as -> by (destruct out; discriminate || reflexivity).
  assert (X : same_groups h1 f /\ held h h1).
  { cbn [receive_event] in E. unfold receive_cgka in E. destruct (negb (do_ok o)); [discriminate|]. destruct (h_docs h !! do_doc o); [|discriminate].
    pose proof (pairs_receive (h_keys h) (h_cg h) o) as P. destruct (doc_receive _ _ _ _ _) as [y ok]. injection E as <- _. split; [exact Sg|]. split; [reflexivity|]. split; [exact P|reflexivity]. }
  destruct X as [Sg1 He]. destruct (IH _ _ _ _ Hl Sg1 R) as (h2 & A & B & C). exists h2. split; [exact A|]. split; [eapply held_trans; eauto|exact C].
Qed.

(** ** Making groups and documents *)

Section made.
Context (b : bool) (i : ident) (content : nat).
Definition root (x : ident * sig) : dlg := Dlg x.2 i x.1 Admin None [] content.
Definition make (h : client) (g : group) : client := if b then new_document h i g else new_plain_group h i g.
Definition rooted (m : gmap sig dlg) : Prop := forall s d, m !! s = Some d -> d_sig d = s /\ d_proof d = None /\ d_after d = [].

Lemma rooted_rebuild gid m mem act : rooted m -> exists g', rebuild order (Group gid m ∅ mem act) = Some g' /\ gr_id g' = gid /\ gr_dheads g' = m /\ gr_rheads g' = ∅.
Proof.
  intros R. set (g0 := Group gid m ∅ mem act).
  assert (F : filed g0) by (split; cbn; [intros s d E; exact (proj1 (R s d E))|intros s d E; discriminate]).
  assert (K : forall o, known g0 o -> is_head g0 o).
  { intros o (x & Hx & D). destruct D as [|x y z D _]; [exact Hx|]. exfalso. unfold depends_on in D. destruct x as [x|x]; unfold is_head in Hx; cbn in Hx; [|discriminate].
    destruct (R _ _ Hx) as (_ & E1 & E2). cbn in D. rewrite E1, E2 in D. inversion D. }
  assert (U : genuine (known g0)).
  { intros a c A C E. apply K in A, C. destruct a as [a|a], c as [c|c]; unfold is_head in A, C; cbn in A, C, E; try discriminate. rewrite E in A. congruence. }
  destruct (rebuild_play order Hord g0 F U) as (ops & s & _ & _ & _ & Er). eexists. split; [exact Er|]. repeat split.
Qed.
Lemma insert_root m d : m <> ∅ -> rooted m -> d_proof d = None -> insert_dhead order m d = <[d_sig d := d]> m.
Proof.
  intros N R P. unfold insert_dhead. assert (L : lineage d = []) by (destruct d; cbn in *; rewrite P; reflexivity).
  assert (Ne : exists x l, omap (m !!.) (order (dom m)) = x :: l).
  { destruct (map_choose m N) as (s & x & E). destruct (omap (m !!.) (order (dom m))) as [|y l] eqn:O; [|eauto]. exfalso.
    assert (H : x ∈ omap (m !!.) (order (dom m))) by (apply elem_of_list_omap; exists s; split; [rewrite (Hord (dom m)); apply elem_of_elements, elem_of_dom; eauto|exact E]). rewrite O in H. inversion H. }
  assert (H : forall h, h ∈ omap (m !!.) (order (dom m)) -> lineage h = []).
  { intros h Hh. apply elem_of_list_omap in Hh as (s & _ & E). destruct (R _ _ E) as (_ & E1 & _). destruct h; cbn in *. rewrite E1. reflexivity. }
  assert (Step : forall l (acc : gmap sig dlg), (forall h, h ∈ l -> lineage h = []) -> foldl (fun (hs : gmap sig dlg) (h : dlg) => let hs := if is_ancestor_of d h then hs else <[d_sig d := d]> hs in if is_ancestor_of h d then delete (d_sig h) hs else hs) acc l
    = match l with [] => acc | _ => <[d_sig d := d]> acc end).
  { induction l as [|h l IH]; intros acc Hl; [reflexivity|]. cbn [foldl]. cbv zeta. rewrite IH by (intros x Hx; apply Hl; right; exact Hx).
    unfold is_ancestor_of. rewrite L, (Hl h (elem_of_list_here _ _)). cbn [existsb]. destruct l; [reflexivity|]. apply insert_insert. }
  rewrite Step by exact H. destruct Ne as (x & l & ->). reflexivity.
Qed.
Lemma rooted_insert m x : rooted m -> rooted (<[x.2 := root x]> m).
Proof. intros R s d E. apply lookup_insert_Some in E as [[<- <-]|[_ E]]; [repeat split|apply R, E]. Qed.
Lemma roots_trace xs : forall f g, gr_id g = i -> gr_rheads g = ∅ -> gr_dheads g <> ∅ -> rooted (gr_dheads g) -> rebuild order g = Some g -> fresh_list f (map snd xs) ->
  exists f2 g2, trace b i f g (map (fun x => MD (root x)) xs) f2 g2 /\ gr_id g2 = i /\ gr_rheads g2 = ∅ /\ rebuild order g2 = Some g2 /\
  gr_dheads g2 = foldl (fun m x => <[x.2 := root x]> m) (gr_dheads g) xs.
Proof.
  induction xs as [|x xs IH]; intros f g Eg Er N Ro Rb Fr.
  { exists f, g. split; [apply tr_nil|]. auto. }
  destruct (rooted_rebuild i (<[x.2 := root x]> (gr_dheads g)) (gr_members g) (gr_active g) (rooted_insert _ x Ro)) as (g1 & R1 & I1 & D1 & H1).
  assert (T : take ∅ g (MD (root x)) = GOk g1).
  { cbn [TransactLocal.take]. unfold receive_delegation, add_delegation. cbn [d_subject root d_proof d_issuer lineage d_can]. rewrite Eg, Nat.eqb_refl. cbn [negb check_chain rebuilt].
    rewrite Er, (insert_root _ (root x) N Ro eq_refl). unfold drop_rheads. rewrite map_filter_empty. cbn [d_sig root]. rewrite R1. reflexivity. }
  destruct (IH (put_op (put_slot b f i g1) (MD (root x))) g1) as (f2 & g2 & Tr & A & B & C & D).
  - exact I1.
  - exact H1.
  - rewrite D1. apply insert_non_empty.
  - rewrite D1. apply rooted_insert, Ro.
  - eapply rebuild_idem, R1.
  - eapply (trace_fresh b i f g [MD (root x)] _ g1); [|exact Fr]. econstructor; [eauto| |apply Fr; left|apply tr_nil]. intros p Hp. cbn in Hp. inversion Hp.
  - exists f2, g2. split; [|split; [exact A|split; [exact B|split; [exact C|]]]].
    + cbn [map]. econstructor; [eauto| |apply Fr; left|exact Tr]. intros p Hp. cbn in Hp. inversion Hp.
    + rewrite D, D1. reflexivity.
Qed.
Definition pairs_of (xs : list (ident * sig)) : gmap sig dlg := list_to_map (map (fun x => (x.2, root x)) xs).
Lemma ins_union (M m : gmap sig dlg) k v : M !! k = None -> M ∪ <[k := v]> m = <[k := v]> M ∪ m.
Proof. intros N. rewrite <- insert_union_r by exact N. apply insert_union_l. Qed.
Lemma foldl_pairs xs : forall m, NoDup (map snd xs) -> foldl (fun m x => <[x.2 := root x]> m) m xs = pairs_of xs ∪ m.
Proof.
  induction xs as [|x xs IH]; intros m N; cbn [foldl map] in *.
  - unfold pairs_of. cbn. rewrite map_empty_union. reflexivity.
  - apply NoDup_cons in N as [N1 N2]. rewrite IH by exact N2. unfold pairs_of. cbn [map list_to_map foldr].
    apply ins_union. apply not_elem_of_list_to_map_1. intros H. apply N1. apply elem_of_list_fmap in H as (y & Ey & H).
    apply elem_of_list_fmap in H as (z & -> & H). apply elem_of_list_fmap. exists z. auto.
Qed.
Lemma foldl_dlgs l : forall h : client, (h_dlgs (foldl put_dlg h l) = foldl (fun m d => <[d_sig d := d]> m) (h_dlgs h) l) /\ h_revs (foldl put_dlg h l) = h_revs h /\
  h_groups (foldl put_dlg h l) = h_groups h /\ h_docs (foldl put_dlg h l) = h_docs h /\ h_keys (foldl put_dlg h l) = h_keys h.
Proof. induction l as [|d l IH]; intros h; cbn [foldl]; [repeat split|]. destruct (IH (put_dlg h d)) as (A & B & C & D & E). rewrite A, B, C, D, E. repeat split. Qed.
Lemma foldl_values (m : gmap sig dlg) (l : list dlg) : NoDup (map d_sig l) -> foldl (fun m d => <[d_sig d := d]> m) m l = list_to_map (map (fun d => (d_sig d, d)) l) ∪ m.
Proof.
  revert m. induction l as [|x xs IH]; intros m N; cbn [foldl map] in *.
  - cbn. rewrite map_empty_union. reflexivity.
  - apply NoDup_cons in N as [N1 N2]. rewrite IH by exact N2. cbn [map list_to_map foldr].
    apply ins_union. apply not_elem_of_list_to_map_1. intros H. apply N1. apply elem_of_list_fmap in H as (y & Ey & H).
    apply elem_of_list_fmap in H as (z & -> & H). apply elem_of_list_fmap. exists z. auto.
Qed.
Lemma own_values (m : gmap sig dlg) : (forall s d, m !! s = Some d -> d_sig d = s) -> map (fun d => (d_sig d, d)) (map snd (map_to_list m)) = map_to_list m.
Proof.
  intros H. rewrite map_map. rewrite <- (map_id (map_to_list m)) at 2. apply map_ext_in. intros [s d] Hin. apply elem_of_list_In, elem_of_map_to_list in Hin. cbn. rewrite (H _ _ Hin). reflexivity.
Qed.
Lemma made_dlgs (h m : gmap sig dlg) : (forall s d, m !! s = Some d -> d_sig d = s) -> foldl (fun m d => <[d_sig d := d]> m) h (map snd (map_to_list m)) = m ∪ h.
Proof.
  intros H. rewrite foldl_values.
  - rewrite own_values, list_to_map_to_list by exact H. reflexivity.
  - assert (E : map d_sig (map snd (map_to_list m)) = map fst (map_to_list m)).
    { transitivity (map fst (map (fun d => (d_sig d, d)) (map snd (map_to_list m)))); [rewrite !map_map; reflexivity|rewrite (own_values m H); reflexivity]. }
    rewrite E. apply NoDup_fst_map_to_list.
Qed.
Lemma pairs_rooted xs : rooted (pairs_of xs).
Proof.
  induction xs as [|x xs IH]; [intros s d E; discriminate|]. apply rooted_insert, IH.
Qed.
(** A group made at once is the group that is made step by step. *)
Lemma make_trace f x0 xs g : fresh_list f (map snd (x0 :: xs)) -> h_groups f !! i = None -> h_docs f !! i = None -> generate_group order i (x0 :: xs) content = Some g ->
  exists g1 f2, new_group order (root x0) = Some g1 /\ gr_id g1 = i /\ trace b i (make (put_dlg f (root x0)) g1) g1 (map (fun x => MD (root x)) xs) f2 g /\
    same_groups f2 (put_made (make f g) (map snd (map_to_list (gr_dheads g))) []).
Proof.
  intros Fr N1 N2 G. destruct (rooted_rebuild i {[x0.2 := root x0]} ∅ ∅) as (g1 & R1 & I1 & D1 & H1).
  { intros s d E. apply lookup_singleton_Some in E as [<- <-]. repeat split. }
  set (f1 := make (put_dlg f (root x0)) g1).
  assert (Sl1 : slot f1 b i g1) by (unfold f1, make; destruct b; cbn; [split; [exact N1|]|]; apply lookup_insert).
  destruct Fr as [Nd Un]. cbn [map] in Nd, Un. pose proof Nd as Nd0. apply NoDup_cons in Nd as [Nx Nxs].
  destruct (roots_trace xs f1 g1) as (f2 & g2 & T & A & B & C & D).
  - exact I1.
  - exact H1.
  - rewrite D1. apply map_non_empty_singleton.
  - rewrite D1. intros s d E. apply lookup_singleton_Some in E as [<- <-]. repeat split.
  - eapply rebuild_idem, R1.
  - split; [exact Nxs|]. intros s Hs. destruct (Un s (elem_of_list_further _ _ _ Hs)) as [U1 U2]. unfold f1, make, unsigned. destruct b; cbn; (split; [|exact U2]); rewrite lookup_insert_ne; try exact U1; intros Q; apply Nx; cbn in Q; rewrite Q; exact Hs.
  - assert (Eh : gr_dheads g2 = pairs_of (x0 :: xs)).
    { rewrite D, D1, foldl_pairs by exact Nxs. change ({[x0.2 := root x0]} : gmap sig dlg) with (<[x0.2 := root x0]> (∅ : gmap sig dlg)). unfold pairs_of. cbn [map list_to_map foldr].
      rewrite ins_union; [apply map_union_empty|]. apply not_elem_of_list_to_map_1. intros H. apply Nx. apply elem_of_list_fmap in H as (y & Ey & H).
      apply elem_of_list_fmap in H as (z & -> & H). apply elem_of_list_fmap. exists z. auto. }
    assert (g2 = g) as ->.
    { unfold generate_group in G. change (list_to_map _) with (pairs_of (x0 :: xs)) in G. unfold rebuild in C, G. cbn [gr_dheads gr_rheads gr_id] in G. rewrite A, B, Eh in C. rewrite C in G. injection G as <-. reflexivity. }
    exists g1, f2. split; [exact R1|]. split; [exact I1|]. split; [exact T|].
    rewrite (trace_form _ _ _ _ _ _ _ T Sl1). unfold put_made. cbn [foldl].
    assert (Eo : foldl put_op (put_slot b f1 i g) (map (fun x => MD (root x)) xs) = foldl put_dlg (put_slot b f1 i g) (map root xs)).
    { clear. generalize (put_slot b f1 i g). induction xs as [|x xs IH]; intros h; [reflexivity|]. cbn [map foldl]. apply IH. }
    rewrite Eo. destruct (foldl_dlgs (map root xs) (put_slot b f1 i g)) as (E1 & E2 & E3 & E4 & _).
    destruct (foldl_dlgs (map snd (map_to_list (gr_dheads g))) (make f g)) as (E1' & E2' & E3' & E4' & _).
    repeat split.
    + rewrite E1, E1', Eh, made_dlgs by (intros s d E; apply (pairs_rooted _ _ _ E)).
      transitivity (foldl (fun m x => <[x.2 := root x]> m) (h_dlgs f) (x0 :: xs)); [|rewrite foldl_pairs by exact Nd0; unfold make; destruct b; reflexivity].
      cbn [foldl]. assert (Eb : h_dlgs (put_slot b f1 i g) = <[x0.2 := root x0]> (h_dlgs f)) by (unfold f1, make; destruct b; reflexivity). rewrite Eb.
      generalize (<[x0.2 := root x0]> (h_dlgs f)). clear. induction xs as [|x xs IH]; intros m; [reflexivity|]. cbn [map foldl]. apply IH.
    + rewrite E2, E2'. unfold f1, make. destruct b; reflexivity.
    + rewrite E3, E3'. unfold f1, make. destruct b; cbn; rewrite ?insert_insert; reflexivity.
    + rewrite E4, E4'. unfold f1, make. destruct b; cbn; rewrite ?insert_insert; reflexivity.
Qed.
Lemma make_stocked f x0 g1 : stocked f -> unsigned f x0.2 -> new_group order (root x0) = Some g1 -> stocked (make (put_dlg f (root x0)) g1).
Proof.
  intros S Un G. set (h1 := make (put_dlg f (root x0)) g1).
  assert (HP : forall x, has_op h1 x <-> has_op f x \/ x = MD (root x0)).
  { intros x. rewrite <- (has_put f (MD (root x0)) x Un). unfold h1, make. destruct b, x; reflexivity. }
  assert (U : genuine (has_op h1)).
  { intros a c A C E. apply HP in A as [A| ->]; apply HP in C as [C| ->].
    - apply (sk_gen _ S); auto.
    - destruct (has_unsigned f (MD (root x0)) _ Un A E).
    - symmetry in E. destruct (has_unsigned f (MD (root x0)) _ Un C E).
    - reflexivity. }
  assert (C : closed (has_op h1)).
  { intros a p A D. apply HP. left. apply HP in A as [A| ->]; [eapply (sk_closed _ S); eauto|]. cbn in D. inversion D. }
  assert (Hg : forall j g, has_group h1 j g -> (j = i /\ g = g1) \/ has_group f j g).
  { unfold h1, make, has_group. intros j g. destruct b; cbn; intros [E|E]; auto; apply lookup_insert_Some in E as [[-> ->]|[_ E]]; auto. }
  constructor; try assumption.
  - intros s d E. assert (E' : <[x0.2 := root x0]> (h_dlgs f) !! s = Some d) by (unfold h1, make in E; destruct b; exact E). apply lookup_insert_Some in E' as [[<- <-]|[_ E']]; [reflexivity|eapply (sk_dlgs _ S); exact E'].
  - intros s r E. unfold h1, make in E. destruct b; cbn in E; eapply (sk_revs _ S); exact E.
  - intros j g H. apply Hg in H as [[-> ->]|H]; [apply (rebuild_keeps _ _ _ G)|apply (sk_named _ S), H].
  - intros j g H. apply Hg in H as [[-> ->]|H]; [|eapply stock_mono; [|exact (sk_groups _ S _ _ H)]; intros o Ho; apply HP; auto].
    eapply rebuild_stock; [exact C|exact U| | | |exact G].
    + split; cbn; intros s d E; [|discriminate]. apply lookup_singleton_Some in E as [<- <-]. reflexivity.
    + intros [d|r] H; unfold is_head in H; cbn in H; [|discriminate]. apply lookup_singleton_Some in H as [_ <-]. apply HP. auto.
    + intros d H _. unfold is_head in H. cbn in H. apply lookup_singleton_Some in H as [_ <-]. reflexivity.
Qed.
Lemma make_slot f x0 g1 : h_groups f !! i = None -> slot (make (put_dlg f (root x0)) g1) b i g1.
Proof. intros N. unfold make. destruct b; cbn; [split; [exact N|]|]; apply lookup_insert. Qed.
Lemma sim_make h f x0 g1 h1 : unsigned f x0.2 -> h_groups f !! i = None -> h_docs f !! i = None -> ks_indies (h_keys h) !! i = None -> doc_content content i = b ->
  new_group order (root x0) = Some g1 -> same_groups h f -> receive h (static_of (MD (root x0))) = (h1, HDone) -> same_groups h1 (make (put_dlg f (root x0)) g1) /\ held h h1.
Proof.
  intros [U1 U2] N1 N2 N3 Eb G Sg R. pose proof Sg as (Ed & Er & Eg & Eo). pose proof (proj1 (rebuild_keeps _ _ _ G)) as Ei. cbn in Ei.
  cbn [static_of receive_event] in R. unfold receive_dlg in R. cbn [sd_sig sd_ok sd_content] in R. rewrite Ed in R. cbn [d_sig root] in R. rewrite U1 in R.
  rewrite bool_decide_eq_false_2 in R by (intros [? Q]; discriminate). cbn [negb] in R.
  destruct (resolve_dlg _ _) as [|d'] eqn:Rs; [discriminate|]. apply (resolve_back_dlg h (root x0)) in Rs as ->; [|cbn; intros p Hp; inversion Hp].
  cbv zeta in R. cbn [d_subject root d_proof d_issuer] in R. rewrite (fmap_none _ _ _ Eg N1), (fmap_none _ _ _ Eo N2), N3 in R. rewrite G in R. cbn [d_content root] in R. rewrite Eb, Ei in R. injection R as <-.
  unfold make. destruct b; repeat split; cbn; try congruence; rewrite !fmap_insert; congruence.
Qed.
End made.

(** ** The calls of clients *)

Definition quiet (h h' : client) : Prop := exists c, h' = put_cg h c.
Lemma quiet_refl h : quiet h h. Proof. exists (h_cg h). destruct h; reflexivity. Qed.
Lemma quiet_trans a c d : quiet a c -> quiet c d -> quiet a d.
Proof. intros [x ->] [y ->]. exists y. reflexivity. Qed.
Lemma quiet_put h j c : quiet h (put_cgka h j c). Proof. eexists. reflexivity. Qed.
Lemma quiet_same h h' : quiet h h' -> same_groups h h' /\ h_keys h' = h_keys h.
Proof. intros [c ->]. repeat split. Qed.
Lemma add_keys_quiet h j l hs h' r : doc_add_keys horder rorder h j l hs = (h', r) -> quiet h h'.
Proof.
  unfold doc_add_keys. destruct l; [intros [= <- _]; apply quiet_refl|]. destruct (cgka_of h j); [|intros [= <- _]; apply quiet_refl].
  destruct (add_keys _ _ _ _ _). intros [= <- _]. apply quiet_put.
Qed.
Lemma add_to_docs_quiet gid who docs hs : forall h h' r, add_to_docs order horder rorder pick h gid who docs hs = (h', r) -> quiet h h'.
Proof.
  induction docs as [|j docs IH]; intros h h' r E; cbn [add_to_docs remove_from_docs] in E; [injection E as <- _; apply quiet_refl|].
  destruct (h_docs h !! j) as [g|]; [|eapply IH; exact E]. destruct (negb _); [eapply IH; exact E|]. destruct (pick_prekeys _ _ _ _ _) as [l|]; [|injection E as <- _; apply quiet_refl].
  destruct (doc_add_keys _ _ _ _ _ _) as [h1 [ops|]] eqn:A; [|injection E as <- _; eapply add_keys_quiet; exact A].
  destruct (add_to_docs _ _ _ _ h1 _ _ _ _) as [h2 [ops2|]] eqn:B; injection E as <- _; (eapply quiet_trans; [eapply add_keys_quiet; exact A|eapply IH; exact B]).
Qed.
Lemma remove_from_docs_quiet gid ids docs hs : forall h h' r, remove_from_docs order horder rorder h gid ids docs hs = (h', r) -> quiet h h'.
Proof.
  induction docs as [|j docs IH]; intros h h' r E; cbn [add_to_docs remove_from_docs] in E; [injection E as <- _; apply quiet_refl|].
  destruct (h_docs h !! j) as [g|]; [|eapply IH; exact E]. destruct (caps_of _ _ _) as [caps|]; [|injection E as <- _; apply quiet_refl].
  destruct (bool_decide _); [|eapply IH; exact E]. destruct (cgka_of h j) as [c|]; [|eapply IH; exact E].
  destruct (try_remove_keys _ _ _ _ _) as [c1 [ops| | |]]; try (injection E as <- _; apply quiet_put).
  destruct (remove_from_docs _ _ _ (put_cgka h j c1) _ _ _ _) as [h2 [ops2|]] eqn:B; injection E as <- _; (eapply quiet_trans; [apply quiet_put|eapply IH; exact B]).
Qed.
Lemma made_form (h : client) rs ds : foldl put_op h (map MR rs ++ map MD ds) = put_made h ds rs.
Proof.
  rewrite foldl_app. unfold put_made.
  assert (A : forall l h, foldl put_op h (map MR l) = foldl put_rev h l) by (induction l as [|r l IH]; intros x; [reflexivity|apply IH]).
  assert (B : forall l h, foldl put_op h (map MD l) = foldl put_dlg h l) by (induction l as [|r l IH]; intros x; [reflexivity|apply IH]).
  rewrite A, B. revert h. induction rs as [|r rs IH]; intros h; [reflexivity|]. cbn [foldl]. rewrite IH. f_equal.
  clear. revert h. induction ds as [|d ds IH]; intros h; [reflexivity|]. cbn [foldl]. rewrite <- IH. reflexivity.
Qed.
Lemma made_keys (h : client) ds rs : h_keys (put_made h ds rs) = h_keys h.
Proof.
  rewrite <- made_form. generalize (map MR rs ++ map MD ds). intros l. revert h. induction l as [|o l IH]; intros h; [reflexivity|]. cbn [foldl]. rewrite IH. destruct o; reflexivity.
Qed.

Definition keys_frame (f : client) (c : call) (f' : client) : Prop := me f' = me f /\ (forall j, is_Some (ks_indies (h_keys f) !! j) \/ j ∈ carded c -> is_Some (ks_indies (h_keys f') !! j)) /\
  forall j, ks_indies (h_keys f) !! j = None -> j ∉ carded c -> ks_indies (h_keys f') !! j = None.
Lemma keys_quiet (f f1 f' : client) c : carded c = [] -> ks_indies (h_keys f1) = ks_indies (h_keys f) /\ me f1 = me f -> quiet f1 f' -> keys_frame f c f'.
Proof. intros Ec [E M] [x ->]. split; [exact M|]. cbn. rewrite E, Ec. split; [|auto]. intros j [H|H]; [exact H|inversion H]. Qed.
(** What a call does. *)
Inductive shape (f : client) (c : call) (f' : client) (log : list (sevent dop)) : Prop :=
| sh_quiet : keys_frame f c f' -> named c = [] -> same_groups f f' -> (forall x, x ∈ log -> side x) -> shape f c f' log
| sh_ops b i g rs f1 g1 ds f2 g2 ops : keys_frame f c f' -> named c = [] -> slot f b i g -> trace b i f g (map MR rs) f1 g1 -> trace b i f1 g1 (map MD ds) f2 g2 -> same_groups f2 f' ->
    (forall s, s ∈ map r_sig rs ++ map d_sig ds -> s ∈ drawn c) ->
    (forall d, d ∈ ds -> d_delegate d ∈ invited c \/ exists d0, has_op f (MD d0) /\ d_delegate d = d_delegate d0) ->
    log = map static_of (map MR rs) ++ map static_of (map MR rs) ++ map static_of (map MD ds) ++ map ECgka ops -> shape f c f' log
| sh_made b i content x0 xs g1 f2 g2 ops : keys_frame f c f' -> named c = [i] -> drawn c = map snd (x0 :: xs) -> invited c = map fst (x0 :: xs) -> doc_content content i = b -> new_group order (root i content x0) = Some g1 ->
    trace b i (make b i (put_dlg f (root i content x0)) g1) g1 (map (fun x => MD (root i content x)) xs) f2 g2 -> same_groups f2 f' ->
    log = static_of (MD (root i content x0)) :: map static_of (map (fun x => MD (root i content x)) xs) ++ map ECgka ops -> shape f c f' log.
Lemma side_ops ops x : x ∈ map (@ECgka dop) ops -> side x.
Proof. intros H. apply elem_of_list_fmap in H as (o & -> & _). exact I. Qed.

Lemma add_shape b i f g who can content s hs g' d f' ops : stocked f -> fresh_list f [s] -> slot f b i g -> add_member order (h_env f) g who can (me f) content s = GOk (g', d) ->
  quiet (put_made (put_slot b f i g') [d] []) f' -> shape f (TAdd i who can content s hs) f' (static_of (MD d) :: map ECgka ops).
Proof.
  intros S Fr Sl A Q. destruct (add_trace _ _ _ _ _ _ _ _ _ _ _ _ _ S Sl Fr A) as (Es & Ew & f2 & T).
  assert (Kf : keys_frame f (TAdd i who can content s hs) f') by (eapply keys_quiet; [first [reflexivity|assumption]| |exact Q]; unfold me; rewrite made_keys; destruct b; split; reflexivity).
  eapply (sh_ops _ _ _ _ b i g [] f g [d] f2 g' ops Kf eq_refl Sl (tr_nil _ _ _ _) T).
  - rewrite (trace_form _ _ _ _ _ _ _ T Sl). eapply same_trans; [|apply quiet_same, Q]. apply same_refl.
  - cbn. rewrite Es. auto.
  - intros x Hx. apply elem_of_list_singleton in Hx as ->. left. cbn. rewrite Ew. left.
  - reflexivity.
Qed.
Lemma revoke_shape b i f g target retain content sigs hs g' rs ds f' ops : stocked f -> fresh_list f sigs -> slot f b i g ->
  revoke_member order (h_env f) g target retain (me f) content sigs = GOk (g', rs, ds) ->
  quiet (put_made (put_slot b f i g') ds rs) f' ->
  shape f (TRevoke i target retain content sigs hs) f' (map (fun r => static_of (MR r)) (rs ++ rs) ++ map (fun d => static_of (MD d)) ds ++ map ECgka ops).
Proof.
  intros S Fr Sl A Q. destruct (revoke_trace _ _ _ _ _ _ _ _ _ _ _ _ _ S Sl Fr A) as (Es & Ew & f1 & g1 & f2 & T1 & T2).
  assert (Kf : keys_frame f (TRevoke i target retain content sigs hs) f') by (eapply keys_quiet; [first [reflexivity|assumption]| |exact Q]; unfold me; rewrite made_keys; destruct b; split; reflexivity).
  eapply (sh_ops _ _ _ _ b i g rs f1 g1 ds f2 g' ops Kf eq_refl Sl T1 T2).
  - rewrite (trace_form _ _ _ _ _ _ _ (trace_app _ _ _ _ _ _ _ _ _ _ T1 T2) Sl), made_form. apply quiet_same, Q.
  - exact Es.
  - intros d Hd. right. apply Ew, Hd.
  - rewrite map_app, !map_map, <- app_assoc. reflexivity.
Qed.
Lemma make_shape b i f c x0 xs content g f' ops : fresh_list f (map snd (x0 :: xs)) -> h_groups f !! i = None -> h_docs f !! i = None ->
  named c = [i] -> drawn c = map snd (x0 :: xs) -> invited c = map fst (x0 :: xs) -> carded c = [] -> doc_content content i = b ->
  generate_group order i (x0 :: xs) content = Some g -> quiet (put_made (make b i f g) (map snd (map_to_list (gr_dheads g))) []) f' ->
  shape f c f' (map (fun x => static_of (MD (Dlg x.2 i x.1 Admin None [] content))) (x0 :: xs) ++ map ECgka ops).
Proof.
  intros Fr N1 N2 En Ed Ein Ec Eb G Q. destruct (make_trace b i content f x0 xs g Fr N1 N2 G) as (g1 & f2 & G1 & _ & T & Sg).
  assert (Kf : keys_frame f c f') by (eapply keys_quiet; [first [reflexivity|assumption]| |exact Q]; unfold me; rewrite made_keys; unfold make; destruct b; split; reflexivity).
  eapply (sh_made _ _ _ _ b i content x0 xs g1 f2 g ops Kf En Ed Ein Eb G1 T).
  - eapply same_trans; [exact Sg|apply quiet_same, Q].
  - rewrite map_map. reflexivity.
Qed.
Lemma run_call_shape f c f' log : own_call doc_content c -> stocked f -> fresh_list f (drawn c) -> (forall i, i ∈ named c -> h_groups f !! i = None /\ h_docs f !! i = None) ->
  run_call f c = Some (f', log) -> shape f c f' log.
Proof.
  intros Ow S Fr Nm E. destruct c as [i ps content|i ps content sk h0 hs hu rng|i who can content s hs|i target retain content sigs hs|j sk x rng|j ref content preds sk x rng|sk|old sk|o|x]; cbn [TransactModel.run_call own_call drawn named] in *.
  - unfold hive_generate_group in E. destruct (generate_group _ _ _ _) as [g|] eqn:G; [|discriminate]. injection E as <- <-. destruct Ow as [Ne Eb]. destruct ps as [|x0 xs]; [contradiction|].
    destruct (Nm i (elem_of_list_here _ _)) as [N1 N2]. match goal with |- shape _ _ _ ?l => rewrite <- (app_nil_r l) end. change (@nil (sevent dop)) with (map (@ECgka dop) []). eapply (make_shape false i f _ x0 xs content g); eauto. apply quiet_refl.
  - destruct (hive_generate_doc _ _ _ _ _ _ _ _ _ _ _ _ _) as [f1 [ops|]] eqn:D; [|discriminate]. injection E as <- <-. unfold hive_generate_doc in D.
    destruct (generate_group _ _ _ _) as [g|] eqn:G; [|discriminate]. destruct (prekey_individuals _ _ _ _ _); [|discriminate]. destruct (cgka_from_init _ _ _) as [c0| | |]; try discriminate. cbv zeta in D.
    destruct (add_keys _ _ _ _ _) as [c1 [o1| | |]]; try discriminate. destruct (cgka_update _ _ _ _ _ _) as [c2 [[[? op] ?]| | |]]; try discriminate. cbv zeta in D.
    destruct Ow as [Ne Eb]. destruct ps as [|x0 xs]; [contradiction|]. destruct (Nm i (elem_of_list_here _ _)) as [N1 N2].
    apply (f_equal fst) in D. cbn [fst] in D. eapply (make_shape true i f _ x0 xs content g); eauto. rewrite <- D. apply quiet_put.
  - destruct (hive_add_member _ _ _ _ _ _ _ _ _ _ _) as [f1 [[d ops]|]] eqn:D; [|discriminate]. injection E as <- <-. unfold hive_add_member in D. destruct (any_loop _ _); [discriminate|].
    destruct (h_groups f !! i) as [g|] eqn:Lg.
    + destruct (add_member _ _ _ _ _ _ _ _) as [[g' d']|] eqn:A; [|discriminate]. cbv zeta in D. destruct (_ || _); [discriminate|].
      destruct (is_reader can).
      * destruct (add_to_docs _ _ _ _ _ _ _ _ _) as [h2 [ops2|]] eqn:Q; [|discriminate]. injection D as <- <- <-. eapply (add_shape false); eauto. eapply add_to_docs_quiet; exact Q.
      * injection D as <- <- <-. eapply (add_shape false); eauto. apply quiet_refl.
    + destruct (h_docs f !! i) as [g|] eqn:Ld; [|discriminate]. destruct (add_member _ _ _ _ _ _ _ _) as [[g' d']|] eqn:A; [|discriminate]. cbv zeta in D. destruct (_ || _); [discriminate|].
      destruct (is_reader can).
      * destruct (pick_prekeys _ _ _ _ _) as [l|]; [|discriminate]. destruct (doc_add_keys _ _ _ _ _ _) as [h2 [ops2|]] eqn:Q; [|discriminate]. injection D as <- <- <-.
        eapply (add_shape true); [exact S|exact Fr|split; eauto|exact A|eapply add_keys_quiet; exact Q].
      * injection D as <- <- <-. eapply (add_shape true); [exact S|exact Fr|split; eauto|exact A|apply quiet_refl].
  - destruct (hive_revoke_member _ _ _ _ _ _ _ _ _ _) as [f1 [[[rs ds] ops]|]] eqn:D; [|discriminate]. injection E as <- <-. unfold hive_revoke_member in D. destruct (any_loop _ _); [discriminate|].
    destruct (h_groups f !! i) as [g|] eqn:Lg.
    + destruct (behind _ _ _) as [ids|]; [|discriminate]. destruct (revoke_member _ _ _ _ _ _ _ _) as [[[g' rs'] ds']|] eqn:A; [|discriminate]. destruct (revoking_hangs _ _ _ _ _); [discriminate|]. cbv zeta in D.
      destruct (bool_decide _).
      * injection D as <- <- <- <-. eapply (revoke_shape false); eauto. apply quiet_refl.
      * destruct (remove_from_docs _ _ _ _ _ _ _ _) as [h2 [ops2|]] eqn:Q; [|discriminate]. injection D as <- <- <- <-. eapply (revoke_shape false); eauto. eapply remove_from_docs_quiet; exact Q.
    + destruct (h_docs f !! i) as [g|] eqn:Ld; [|discriminate].
      destruct (behind _ _ _) as [ids|]; [|discriminate]. destruct (revoke_member _ _ _ _ _ _ _ _) as [[[g' rs'] ds']|] eqn:A; [|discriminate]. destruct (revoking_hangs _ _ _ _ _); [discriminate|]. cbv zeta in D.
      destruct (group_individual_ids _ _ _) as [still|]; [|discriminate]. destruct (order (ids ∖ still)) as [|z zs].
      * injection D as <- <- <- <-. eapply (revoke_shape true); [exact S|exact Fr|split; eauto|exact A|apply quiet_refl].
      * destruct (cgka_of _ i); [|discriminate]. destruct (remove_keys _ _ _ _ _) as [c1 [ops2| | |]]; try (destruct (of_res _); discriminate). injection D as <- <- <- <-.
        eapply (revoke_shape true); [exact S|exact Fr|split; eauto|exact A|apply quiet_put].
  - destruct (hive_update _ _ _ _ _ _ _) as [f1 [op|]] eqn:D; [|discriminate]. injection E as <- <-. unfold hive_update in D. destruct (cgka_of f j); [|discriminate]. destruct (cgka_update _ _ _ _ _ _).
    injection D as <- _. apply sh_quiet; [split; [reflexivity|split; [intros q [N|N]; [exact N|inversion N]|auto]]|reflexivity|repeat split|]. apply (side_ops [op]).
  - destruct (hive_encrypt _ _ _ _ _ _ _ _ _ _) as [f1 [[ec op]|]] eqn:D; [|discriminate]. injection E as <- <-. unfold hive_encrypt in D. destruct (cgka_of f j); [|discriminate]. destruct (new_app_secret_for _ _ _ _ _ _ _ _ _).
    injection D as <- _. apply sh_quiet; [split; [reflexivity|split; [intros q [N|N]; [exact N|inversion N]|auto]]|reflexivity|repeat split|]. apply side_ops.
  - destruct (make_prekey _ _ _) as [[f1 o]|] eqn:D; [|discriminate]. cbn in E. injection E as <- <-. unfold make_prekey in D. destruct (ks_indies _ !! _) as [y|] eqn:Y; [|discriminate]. destruct (active_expand _ _). injection D as <- <-.
    apply sh_quiet; [split; [reflexivity|split; cbn; [intros q [N|N]; [|inversion N]; destruct (decide (me f = q)) as [<-|]; [rewrite lookup_insert; eauto|rewrite lookup_insert_ne by assumption; exact N]|intros q N _; rewrite lookup_insert_ne by congruence; exact N]]|reflexivity|repeat split|]. intros x Hx. apply elem_of_list_singleton in Hx as ->. exact I.
  - destruct (make_prekey _ _ _) as [[f1 o]|] eqn:D; [|discriminate]. cbn in E. injection E as <- <-. unfold make_prekey in D. destruct (ks_indies _ !! _) as [y|] eqn:Y; [|discriminate]. destruct (active_rotate _ _ _). injection D as <- <-.
    apply sh_quiet; [split; [reflexivity|split; cbn; [intros q [N|N]; [|inversion N]; destruct (decide (me f = q)) as [<-|]; [rewrite lookup_insert; eauto|rewrite lookup_insert_ne by assumption; exact N]|intros q N _; rewrite lookup_insert_ne by congruence; exact N]]|reflexivity|repeat split|]. intros x Hx. apply elem_of_list_singleton in Hx as ->. exact I.
  - destruct (receive_contact_card _ _) as [k [e|]] eqn:R; [discriminate|]. injection E as <- <-. apply sh_quiet; [|reflexivity|repeat split|].
    { split; [unfold receive_contact_card in R; unfold me; cbn; destruct (ks_indies _ !! _); [destruct (receive_key _ _); injection R as <- _|injection R as <-]; reflexivity|]. split.
      { intros j N. cbn in N. rewrite elem_of_list_singleton in N. unfold receive_contact_card in R. cbn. destruct (ks_indies _ !! ko_issuer o); [destruct (receive_key _ _); injection R as <- _|injection R as <-];
        cbn; (destruct (decide (ko_issuer o = j)) as [<-|]; [rewrite lookup_insert; eauto|rewrite lookup_insert_ne by assumption; destruct N as [N|N]; [exact N|congruence]]). }
      intros j N Nj. cbn in Nj |- *. apply not_elem_of_cons in Nj as [Nj _]. unfold receive_contact_card in R. destruct (ks_indies _ !! ko_issuer o); [destruct (receive_key _ _); injection R as <- _|injection R as <-];
        cbn; rewrite lookup_insert_ne by congruence; exact N. }
    intros x Hx. apply elem_of_list_singleton in Hx as ->. exact I.
  - contradiction.
Qed.

Lemma trace_other b i f g l f2 g2 j : trace b i f g l f2 g2 -> j <> i -> h_groups f2 !! j = h_groups f !! j /\ h_docs f2 !! j = h_docs f !! j.
Proof.
  induction 1 as [f g|f g o g1 l f2 g2 T Pa Un _ IH]; intros N; [auto|]. destruct (IH N) as [-> ->]. destruct o, b; cbn; rewrite ?lookup_insert_ne by congruence; auto.
Qed.
Lemma same_none f f' j : same_groups f f' -> h_groups f !! j = None /\ h_docs f !! j = None -> h_groups f' !! j = None /\ h_docs f' !! j = None.
Proof. intros (_ & _ & C & D) [A B]. symmetry in C, D. split; [exact (fmap_none _ _ _ C A)|exact (fmap_none _ _ _ D B)]. Qed.
Lemma shape_frame f c f' log : shape f c f' log ->
  (forall s, unsigned f s -> s ∉ drawn c -> unsigned f' s) /\
  (forall j, h_groups f !! j = None /\ h_docs f !! j = None -> j ∉ named c -> h_groups f' !! j = None /\ h_docs f' !! j = None) /\ keys_frame f c f'.
Proof.
  intros [K _ Sg _|b i g rs f1 g1 ds f2 g2 ops K _ Sl T1 T2 Sg Hs _ _|b i content x0 xs g1 f2 g2 ops K En Ed _ _ _ T Sg _]; (split; [|split; [|exact K]]).
  - intros s U _. eapply same_unsigned; [apply same_sym, Sg|exact U].
  - intros j N _. eapply same_none; eauto.
  - intros s U N. eapply same_unsigned; [apply same_sym, Sg|]. eapply trace_unsigned; [eapply trace_app; [exact T1|exact T2]| |exact U].
    rewrite map_app, !map_map. intros Q. apply N, Hs. exact Q.
  - intros j [N1 N2] _. eapply same_none; [exact Sg|]. assert (Ne : j <> i) by (intros ->; destruct b; cbn in Sl; [destruct Sl|]; congruence).
    destruct (trace_other _ _ _ _ _ _ _ j (trace_app _ _ _ _ _ _ _ _ _ _ T1 T2) Ne) as [-> ->]. auto.
  - intros s [U1 U2] N. eapply same_unsigned; [apply same_sym, Sg|]. rewrite Ed in N. cbn in N. apply not_elem_of_cons in N as [N1 N2]. eapply trace_unsigned; [exact T| |].
    + rewrite map_map. exact N2.
    + unfold make, unsigned. destruct b; cbn; (split; [|exact U2]); rewrite lookup_insert_ne by congruence; exact U1.
  - intros j [N1 N2] N. eapply same_none; [exact Sg|]. rewrite En in N. apply not_elem_of_cons in N as [N _]. destruct (trace_other _ _ _ _ _ _ _ j T N) as [-> ->].
    unfold make. destruct b; cbn; rewrite ?lookup_insert_ne by congruence; auto.
Qed.
Lemma shape_stocked f c f' log : stocked f -> fresh_list f (drawn c) -> (forall i, i ∈ named c -> h_groups f !! i = None /\ h_docs f !! i = None) -> shape f c f' log -> stocked f'.
Proof.
  intros S [_ Fr] Nm [K _ Sg _|b i g rs f1 g1 ds f2 g2 ops K _ Sl T1 T2 Sg Hs _ _|b i content x0 xs g1 f2 g2 ops K En Ed _ _ G T Sg _]; (eapply stocked_same; [exact Sg|]).
  - exact S.
  - apply (trace_stocked _ _ _ _ _ _ _ (trace_app _ _ _ _ _ _ _ _ _ _ T1 T2) S Sl).
  - rewrite Ed in Fr. rewrite En in Nm. destruct (Nm i (elem_of_list_here _ _)) as [N1 N2].
    eapply (trace_stocked _ _ _ _ _ _ _ T); [|apply make_slot, N1]. eapply make_stocked; [exact S|apply Fr; left|exact G].
Qed.
Lemma shape_sim f c f' log h rest hz : stocked f -> fresh_list f (drawn c) -> (forall i, i ∈ named c -> h_groups f !! i = None /\ h_docs f !! i = None) ->
  (forall i, i ∈ named c -> ks_indies (h_keys h) !! i = None) -> shape f c f' log -> same_groups h f -> replay h (log ++ rest) = ADone hz ->
  exists h', same_groups h' f' /\ held h h' /\ replay h' rest = ADone hz.
Proof.
  intros S [_ Fr] Nm Nk [K _ Sg Sd|b i g rs f1 g1 ds f2 g2 ops K _ Sl T1 T2 Sg Hs _ ->|b i content x0 xs g1 f2 g2 ops K En Ed _ Eb G T Sg ->] Le R.
  - destruct (sim_side _ _ _ _ _ Sd Le R) as (h' & A & B & C). exists h'. split; [eapply same_trans; eauto|auto].
  - rewrite <- !app_assoc in R. destruct (sim_trace _ _ _ _ _ _ _ T1 _ _ _ S Sl Le R) as (h1 & A1 & B1 & R1).
    apply replay_again in R1; [|intros r Hr; eapply same_has; [exact A1|]; eapply trace_got; [exact T1|apply elem_of_list_fmap; eauto]].
    destruct (trace_stocked _ _ _ _ _ _ _ T1 S Sl) as [S1 Sl1].
    destruct (sim_trace _ _ _ _ _ _ _ T2 _ _ _ S1 Sl1 A1 R1) as (h2 & A2 & B2 & R2).
    destruct (sim_side _ _ _ _ _ (side_ops ops) A2 R2) as (h3 & A3 & B3 & R3).
    exists h3. split; [eapply same_trans; eauto|]. split; [eauto using held_trans|exact R3].
  - rewrite En in Nm, Nk. rewrite Ed in Fr. destruct (Nm i (elem_of_list_here _ _)) as [N1 N2]. cbn [app] in R. rewrite <- app_assoc in R. apply replay_static in R as (h0 & R0 & R).
    assert (U0 : unsigned f x0.2) by (apply Fr; left).
    destruct (sim_make b i content h f x0 g1 h0 U0 N1 N2 (Nk i (elem_of_list_here _ _)) Eb G Le R0) as [A0 B0].
    destruct (sim_trace _ _ _ _ _ _ _ T _ _ _ (make_stocked b i content f x0 g1 S U0 G) (make_slot b i content f x0 g1 N1) A0 R) as (h2 & A2 & B2 & R2).
    destruct (sim_side _ _ _ _ _ (side_ops ops) A2 R2) as (h3 & A3 & B3 & R3).
    exists h3. split; [eapply same_trans; eauto|]. split; [eauto using held_trans|exact R3].
Qed.

(** ** Clients stay intact *)

Definition agents (h : client) : Prop := forall d, has_op h (MD d) -> known_agent h (d_delegate d) = true.
Lemma intact_of h : stocked h -> agents h -> orderable (has_op h) -> intact h.
Proof.
  intros S A O. constructor; [apply (sk_dlgs _ S)|apply (sk_revs _ S)|apply (sk_gen _ S)|exact (sk_closed _ S)|exact A|exact O| | | |].
  - intros i g o Hg. apply (so_heads _ _ (sk_groups _ S _ _ Hg)).
  - intros i g Hg. apply (so_filed _ _ (sk_groups _ S _ _ Hg)).
  - intros i g d Hg. apply (so_roots _ _ (sk_groups _ S _ _ Hg)).
  - intros i g j l Hg. apply (so_members _ _ (sk_groups _ S _ _ Hg)).
Qed.
Lemma known_iff (h : client) i : known_agent h i = true <-> i = me h \/ is_Some (h_docs h !! i) \/ is_Some (h_groups h !! i) \/ is_Some (ks_indies (h_keys h) !! i).
Proof.
  unfold known_agent, me. rewrite !orb_true_iff, !bool_decide_eq_true, Nat.eqb_eq. tauto.
Qed.
Lemma same_some h f j : same_groups h f -> is_Some (h_docs h !! j) \/ is_Some (h_groups h !! j) -> is_Some (h_docs f !! j) \/ is_Some (h_groups f !! j).
Proof.
  intros E. apply same_sym in E. destruct E as (_ & _ & C & D). intros [[g L]|[g L]].
  - destruct (fmap_like _ _ _ _ D L) as (g' & -> & _). eauto.
  - destruct (fmap_like _ _ _ _ C L) as (g' & -> & _). eauto.
Qed.
Lemma trace_some b i f g l f2 g2 j : trace b i f g l f2 g2 -> is_Some (h_docs f !! j) \/ is_Some (h_groups f !! j) -> is_Some (h_docs f2 !! j) \/ is_Some (h_groups f2 !! j).
Proof.
  induction 1 as [f g|f g o g1 l f2 g2 T Pa Un _ IH]; intros N; [exact N|]. apply IH.
  destruct (decide (i = j)) as [->|Ne].
  - destruct o, b; cbn; rewrite lookup_insert; eauto.
  - destruct o, b; cbn; rewrite lookup_insert_ne by exact Ne; exact N.
Qed.
Lemma trace_back b i f g l f2 g2 x : trace b i f g l f2 g2 -> has_op f2 x -> has_op f x \/ x ∈ l.
Proof.
  induction 1 as [f g|f g o g1 l f2 g2 T Pa Un _ IH]; intros N; [auto|]. apply IH in N as [N|N]; [|right; right; exact N].
  destruct (proj1 (has_put _ _ _ (unsigned_put_slot b f i g1 _ Un)) N) as [N1| ->]; [|right; left]. left. apply (put_slot_has b f i g1 x), N1.
Qed.
Lemma shape_some f c f' log i : shape f c f' log -> (is_Some (h_docs f !! i) \/ is_Some (h_groups f !! i)) \/ i ∈ named c -> is_Some (h_docs f' !! i) \/ is_Some (h_groups f' !! i).
Proof.
  intros [K En Sg _|b j g rs f1 g1 ds f2 g2 ops K En Sl T1 T2 Sg Hs _ _|b j content x0 xs g1 f2 g2 ops K En Ed _ _ _ T Sg _] N; rewrite En in N; apply (same_some _ _ _ Sg).
  - destruct N as [N|N]; [exact N|inversion N].
  - destruct N as [N|N]; [|inversion N]. exact (trace_some _ _ _ _ _ _ _ _ (trace_app _ _ _ _ _ _ _ _ _ _ T1 T2) N).
  - apply (trace_some _ _ _ _ _ _ _ _ T). destruct (decide (j = i)) as [->|Ne]; [unfold make; destruct b; cbn; rewrite lookup_insert; eauto|].
    destruct N as [N|N]; [|apply elem_of_list_singleton in N; congruence]. unfold make; destruct b; cbn; rewrite lookup_insert_ne by exact Ne; exact N.
Qed.
Lemma shape_known f c f' log i : shape f c f' log -> known_agent f i = true \/ i ∈ named c \/ i ∈ carded c -> known_agent f' i = true.
Proof.
  intros Sh H. destruct (shape_frame _ _ _ _ Sh) as (_ & _ & Km & Ki & _). pose proof (shape_some _ _ _ _ i Sh) as X. rewrite !known_iff in *. rewrite Km.
  destruct H as [[H|[H|[H|H]]]|[H|H]]; [left; exact H|destruct X; auto|destruct X; auto|right; right; right; apply Ki; auto|destruct X; auto|right; right; right; apply Ki; auto].
Qed.
Lemma shape_agents f c f' log : shape f c f' log -> agents f -> (forall i, i ∈ invited c -> known_agent f i = true) -> agents f'.
Proof.
  intros Sh A Hi d Hd. eapply shape_known; [exact Sh|]. left.
  destruct Sh as [K En Sg _|b j g rs f1 g1 ds f2 g2 ops K En Sl T1 T2 Sg Hs Hw _|b j content x0 xs g1 f2 g2 ops K En Ed Ew _ _ T Sg _]; apply (same_has _ _ _ (same_sym _ _ Sg)) in Hd.
  - apply A, Hd.
  - apply (trace_back _ _ _ _ _ _ _ _ (trace_app _ _ _ _ _ _ _ _ _ _ T1 T2)) in Hd as [Hd|Hd]; [apply A, Hd|].
    apply elem_of_app in Hd as [Hd|Hd]; apply elem_of_list_fmap in Hd as (x & Ex & Hx); [discriminate|]. injection Ex as ->.
    destruct (Hw x Hx) as [H|(d0 & H0 & ->)]; [apply Hi, H|apply A, H0].
  - apply (trace_back _ _ _ _ _ _ _ _ T) in Hd as [Hd|Hd].
    + assert (X : has_op (put_op f (MD (root j content x0))) (MD d)) by (unfold make in Hd; destruct b; exact Hd). cbn in X. apply lookup_insert_Some in X as [[_ <-]|[_ X]]; [|apply A, X].
      apply Hi. rewrite Ew. cbn. left.
    + apply elem_of_list_fmap in Hd as (x & Ex & Hx). injection Ex as ->. apply Hi. rewrite Ew. cbn. right. apply elem_of_list_fmap. exists x. auto.
Qed.

(** ** Bodies *)

Lemma body_frame cs : forall f f' log, (forall c, c ∈ cs -> own_call doc_content c) -> stocked f -> fresh_list f (concat (map drawn cs)) -> NoDup (concat (map named cs)) ->
  (forall i, i ∈ concat (map named cs) -> h_groups f !! i = None /\ h_docs f !! i = None) -> run_calls f cs = Some (f', log) ->
  (forall j, ks_indies (h_keys f) !! j = None -> j ∉ concat (map carded cs) -> ks_indies (h_keys f') !! j = None) /\
  stocked f' /\ me f' = me f /\ (forall K : ident -> Prop, agents f -> (forall i, K i -> known_agent f i = true) -> registered K cs -> agents f') /\
  forall h rest hz, (forall i, i ∈ concat (map named cs) -> ks_indies (h_keys h) !! i = None) -> same_groups h f -> replay h (log ++ rest) = ADone hz ->
    exists h', same_groups h' f' /\ held h h' /\ replay h' rest = ADone hz.
Proof.
  induction cs as [|c cs IH]; intros f f' log Ow S Fr Nd Nm E; cbn [TransactModel.run_calls map concat] in *.
  { injection E as <- <-. split; [auto|]. split; [exact S|]. split; [reflexivity|]. split; [auto|]. intros h rest hz _ Sg R. exists h. split; [exact Sg|]. split; [apply held_refl|exact R]. }
  destruct (run_call f c) as [[f1 l1]|] eqn:E1; [|discriminate]. destruct (run_calls f1 cs) as [[f2 l2]|] eqn:E2; [|discriminate]. injection E as <- <-.
  destruct Fr as [Ns Us]. apply NoDup_app in Ns as (Na & Nab & Nb). apply NoDup_app in Nd as (Ma & Mab & Mb).
  assert (Fr1 : fresh_list f (drawn c)) by (split; [exact Na|]; intros s Hs; apply Us, elem_of_app; auto).
  assert (Nm1 : forall i, i ∈ named c -> h_groups f !! i = None /\ h_docs f !! i = None) by (intros i Hi; apply Nm, elem_of_app; auto).
  pose proof (run_call_shape f c f1 l1 (Ow c (elem_of_list_here _ _)) S Fr1 Nm1 E1) as Sh. destruct (shape_frame _ _ _ _ Sh) as (Fs & Fn & Fk).
  destruct (IH f1 f2 l2) as (K & S2 & Me & Ag & Sim).
  - intros x Hx. apply Ow. right. exact Hx.
  - eapply shape_stocked; eauto.
  - split; [exact Nb|]. intros s Hs. apply Fs; [apply Us, elem_of_app; auto|]. intros Q. apply (Nab s Q Hs).
  - exact Mb.
  - intros i Hi. apply Fn; [apply Nm, elem_of_app; auto|]. intros Q. apply (Mab i Q Hi).
  - exact E2.
  - split.
    + intros j N Nj. apply K; [apply (proj2 (proj2 Fk)); [exact N|]|]; intros Q; apply Nj, elem_of_app; auto.
    + split; [exact S2|]. split; [rewrite Me; apply Fk|]. split.
      { intros P A HP [R1 R2]. eapply (Ag (fun i => P i \/ i ∈ named c \/ i ∈ carded c)); [|clear R1|exact R2].
        - eapply shape_agents; eauto.
        - intros i Hi. eapply shape_known; [exact Sh|]. destruct Hi as [Hi|[Hi|Hi]]; auto. }
      intros h rest hz Nk Sg R. rewrite <- app_assoc in R.
      destruct (shape_sim f c f1 l1 h (l2 ++ rest) hz S Fr1 Nm1) as (h1 & A1 & B1 & R1); [intros i Hi; apply Nk, elem_of_app; auto|exact Sh|exact Sg|exact R|].
      destruct (Sim h1 rest hz) as (h2 & A2 & B2 & R2); [intros i Hi; rewrite (proj1 B1); apply Nk, elem_of_app; auto|exact A1|exact R1|].
      exists h2. split; [exact A2|]. split; [eapply held_trans; eauto|exact R2].
Qed.
Lemma stocked_intact h : intact h -> filed_right h -> stocked h.
Proof.
  intros I N. constructor; try apply I; [intros o p A D; eapply (in_parents _ I); eauto|exact N|].
  intros i g Hg. constructor; [eapply (in_filed _ I); eauto|intros o; eapply (in_heads _ I); eauto|intros j l; eapply (in_members _ I); eauto|intros d; eapply (in_roots _ I); eauto].
Qed.
Lemma forget_same h : same_groups h (forget h).
Proof. repeat split; cbn; apply map_eq; intros j; rewrite !lookup_fmap; destruct (_ !! j); reflexivity. Qed.
Lemma merge_none (k l : kstore) i : ks_indies k !! i = None -> ks_indies l !! i = None -> ks_indies (merge_keys k l) !! i = None.
Proof.
  intros A B. cbn. rewrite lookup_union_with, B. unfold merge_active. destruct (ks_indies k !! ks_active k) as [x|] eqn:X; [|rewrite A; reflexivity].
  destruct (ks_indies l !! ks_active l); [|rewrite A; reflexivity]. rewrite lookup_insert_ne by congruence. rewrite A. reflexivity.
Qed.
Lemma absorb_keeps h f : keeps_keys (absorb h f) f.
Proof.
  split.
  - intros i x E. cbn. rewrite lookup_union_with, E. destruct (merge_active _ _ !! i) as [y|]; cbn; eexists; split; try reflexivity. cbn. set_solver.
  - intros k s E. cbn. apply lookup_union_Some_l, E.
Qed.
Lemma transact_commits h cs h' : intact h -> filed_right h -> (forall c, c ∈ cs -> own_call doc_content c) -> fresh_body h cs ->
  transact order horder rorder pick doc_content h id cs = ADone h' ->
  exists f log, forked order horder rorder pick doc_content h cs f log /\ same_groups h' f /\ keeps_keys h' f /\ me h' = me h /\
    filed_right h' /\ (registered (fun i => known_agent h i = true) cs -> orderable (has_op h') \/ revoked_from_above (has_op h') -> intact h').
Proof.
  intros I N Ow [Fr Fc] E. destruct (round_trip order Hord h I) as (a & E1 & E2). unfold transact, fork_client in E. rewrite E1, E2 in E.
  destruct (run_calls (forget h) cs) as [[f log]|] eqn:Rc; [|discriminate]. unfold id, merge_fork in E.
  pose proof (stocked_same _ _ (forget_same h) (stocked_intact h I N)) as S.
  destruct (body_frame cs (forget h) f log Ow S) as (K & Sf & Me & Ag & Sim).
  - split; [apply (fd_sigs _ _ _ Fr)|]. intros s Hs. apply (fd_new_sig _ _ _ Fr s Hs).
  - apply (fd_ids _ _ _ Fr).
  - intros i Hi. destruct (fd_new_id _ _ _ Fr i Hi) as (A & B & _). eapply same_none; [apply forget_same|auto].
  - exact Rc.
  - destruct (Sim (absorb h f) [] h') as (h2 & A & (B1 & B2 & B3) & C).
    + intros i Hi. apply merge_none; [apply (fd_new_id _ _ _ Fr i Hi)|]. apply K; [apply (fd_new_id _ _ _ Fr i Hi)|apply Fc, Hi].
    + eapply same_trans; [|apply forget_same]. repeat split.
    + rewrite app_nil_r. exact E.
    + cbn in C. injection C as C. subst h2. exists f, log. split; [|split; [exact A|]].
      * unfold forked. unfold fork_client. rewrite E1, E2. eauto.
      * destruct (absorb_keeps h f) as [P Q].
        assert (Kk : keeps_keys h' f) by (split; [intros i x Ex; rewrite B1; apply P, Ex|intros k s Es; rewrite B2; apply Q, Es]).
        split; [exact Kk|]. split; [exact B3|]. pose proof (stocked_same _ _ (same_sym _ _ A) Sf) as S'. split; [apply (sk_named _ S')|].
        intros Rg Or. apply intact_of; [exact S'| |destruct Or as [Or|Or]; [exact Or|apply revoked_from_above_orderable; [apply (sk_closed _ S')|apply (sk_gen _ S')|exact Or]]].
        assert (Af : agents f).
        { apply (Ag (fun i => known_agent h i = true)); [|intros i Hi; rewrite forget_known; exact Hi|exact Rg]. intros d Hd. rewrite forget_known. apply (in_agents _ I), Hd. }
        intros d Hd. assert (Kf : known_agent f (d_delegate d) = true) by (apply Af; eapply same_has; [apply same_sym, A|exact Hd]). rewrite known_iff in Kf |- *.
        assert (Mf : me f = me h') by (rewrite Me, B3; reflexivity).
        destruct Kf as [Kf|[Kf|[Kf|[x Kf]]]]; [left; congruence| | |].
        -- destruct (same_some _ _ (d_delegate d) (same_sym _ _ A)); auto.
        -- destruct (same_some _ _ (d_delegate d) (same_sym _ _ A)); auto.
        -- destruct (proj1 Kk _ _ Kf) as (y & Ey & _). eauto.
Qed.
(** A call on the client itself. *)
Lemma call_stocked h c h' log : intact h -> filed_right h -> own_call doc_content c -> fresh_draws h (drawn c) (named c) -> (forall i, i ∈ invited c -> known_agent h i = true) ->
  run_call h c = Some (h', log) -> stocked h' /\ agents h'.
Proof.
  intros I N Ow Fr Hi E. pose proof (stocked_intact h I N) as S.
  assert (F1 : fresh_list h (drawn c)) by (split; [apply (fd_sigs _ _ _ Fr)|intros s Hs; apply (fd_new_sig _ _ _ Fr s Hs)]).
  assert (F2 : forall i, i ∈ named c -> h_groups h !! i = None /\ h_docs h !! i = None) by (intros i H; destruct (fd_new_id _ _ _ Fr i H) as (A & B & _); auto).
  pose proof (run_call_shape h c h' log Ow S F1 F2 E) as Sh.
  split; [exact (shape_stocked _ _ _ _ S F1 F2 Sh)|]. eapply shape_agents; [exact Sh|intros d; apply (in_agents _ I)|exact Hi].
Qed.
Lemma call_intact h c h' log : intact h -> filed_right h -> own_call doc_content c -> fresh_draws h (drawn c) (named c) -> (forall i, i ∈ invited c -> known_agent h i = true) ->
  run_call h c = Some (h', log) -> filed_right h' /\ (orderable (has_op h') -> intact h') /\ (revoked_from_above (has_op h') -> intact h').
Proof.
  intros I N Ow Fr Hi E. destruct (call_stocked h c h' log I N Ow Fr Hi E) as [S' A']. split; [apply (sk_named _ S')|].
  assert (X : orderable (has_op h') -> intact h') by (apply intact_of; assumption). split; [exact X|]. intros R. apply X. apply revoked_from_above_orderable; [apply (sk_closed _ S')|apply (sk_gen _ S')|exact R].
Qed.
(** Whatever the body does, a transaction that ends well has run it to the end, and no secret is lost. *)
Lemma replay_pairs log : forall h h', replay h log = ADone h' -> cs_pairs (h_cg h') = cs_pairs (h_cg h).
Proof.
  induction log as [|x log IH]; intros h h' E; cbn [TransactModel.replay] in E; [injection E as <-; reflexivity|].
  assert (G : forall h1 out, receive h x = (h1, out) -> cs_pairs (h_cg h1) = cs_pairs (h_cg h)).
  { intros h1 out R. destruct x as [o|o|d|r]; cbn [receive_event] in R.
    - unfold receive_key_event in R. destruct (PrekeyModel.receive_prekey_op _ _). injection R as <- _. reflexivity.
    - unfold receive_cgka in R. destruct (negb _); [injection R as <- _; reflexivity|]. destruct (h_docs h !! _); [|injection R as <- _; reflexivity].
      pose proof (pairs_receive (h_keys h) (h_cg h) o) as P. destruct (doc_receive _ _ _ _ _). injection R as <- _. exact P.
    - unfold receive_dlg in R. repeat match type of R with
        | (if ?b then _ else _) = _ => destruct b
        | match ?m with _ => _ end = _ => destruct m
        | (let _ := _ in _) = _ => cbv zeta in R
        end; injection R as <- _; try reflexivity; destruct (doc_content _ _); reflexivity.
    - unfold receive_rev in R. repeat match type of R with
        | (if ?b then _ else _) = _ => destruct b
        | match ?m with _ => _ end = _ => destruct m
        | (let _ := _ in _) = _ => cbv zeta in R
        end; injection R as <- _; reflexivity. }
  destruct x as [o|o|d|r]; [apply (IH _ _ E)| | |]; (destruct (receive h _) as [h1 out] eqn:R; destruct out; try discriminate; rewrite (IH _ _ E); eapply G; reflexivity).
Qed.
Lemma transact_ran h later cs h' : transact order horder rorder pick doc_content h later cs = ADone h' ->
  exists f log, forked order horder rorder pick doc_content h cs f log /\ cs_pairs (h_cg h') = cs_pairs (h_cg f) ∪ cs_pairs (h_cg (later h)).
Proof.
  unfold transact. destruct (fork_client order h) as [f0| | | | |] eqn:F; try discriminate. destruct (run_calls f0 cs) as [[f log]|] eqn:R; [|discriminate]. intros E.
  exists f, log. split; [exists f0; auto|]. apply (replay_pairs _ _ _ E).
Qed.
End commit.
