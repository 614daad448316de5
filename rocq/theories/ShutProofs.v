(** The keys of a described tree are closed to those who have none of the secrets in force. *)
From Coq Require Import Arith Lia.
From stdpp Require Import base list gmap relations.
From Verif Require Import ResModel KeysModel TreeModel TreeMathModel TreeMathSpec TreeMathProofs TreeSpec TreeOps TreeView TreeProofs TreeInv
  SecrecySpec SecrecyOpen OpsModel OpsSpec OpsProofs CgkaModel CgkaSpec NetSpec NetProofs NetAgree GrowSpec ReadSpec TurnSecretSpec ReadTree ReadWorld ShutSpec.

Lemma derive_halves s p a b : derive_symmetric_key s p = derive_symmetric_key a b -> s = a \/ s = b.
Proof. unfold derive_symmetric_key, pub. intros E. injection E as E1 E2. lia. Qed.

Lemma some_or_none (P : digest -> Prop) (l : list digest) : (forall y, P y \/ ~ P y) -> (exists y, y ∈ l /\ P y) \/ forall y, y ∈ l -> ~ P y.
Proof.
  intros Pd. induction l as [|y l [(z & Hz & Pz)|N]].
  - right. intros y Hy. inversion Hy.
  - left. exists z. split; [right; exact Hz|exact Pz].
  - destruct (Pd y) as [Py|Ny]; [left; exists y; split; [left|exact Py]|right]. intros z Hz. apply elem_of_cons in Hz as [-> |Hz]; auto.
Qed.

(** The keys of a tree and the extra ones its secrets are sealed with. *)
Definition kept (t : tree) (s : share_key) : Prop :=
  (exists k j, nkey t k j = Some s) \/
  exists k j w x e, innerv t k j = Some [w] /\ v_sk w = {[ x := e ]} /\ es_paired e = s.

Section world.
Context (ops : gmap digest signed_op) (OK : ops_ok ops).
Context (CA : forall x o, ops !! x = Some o -> well_made ops x (so_op o)).
Context (AT : changes_in_turn ops).
Notation bef := (came_before ops).

(** ** Operations about a member touch its leaf. *)
Lemma seated_touch n : forall D x y oy id i, size D <= n -> past ops y D -> seat ops (by_then ops x) id i -> is_Some (ops !! x) -> 
  (forall o, ops !! x = Some o -> forall j ks ps, so_op o <> CRemove id j ks ps) ->
  ops !! y = Some oy -> about (so_op oy) = id -> bef x y -> exists y', (y' = y \/ bef y' y) /\ bef x y' /\ touches ops y' i.
Proof.
  induction n as [|n IH]; intros D x y oy id i Sz P St Kx Nr Ey Ab B.
  { exfalso. apply P in B. assert (D = ∅) as -> by (apply leibniz_equiv, size_empty_inv; lia). set_solver. }
  set (R := fun r => bef x r /\ exists o j ks ps, ops !! r = Some o /\ so_op o = CRemove id j ks ps).
  destruct (some_or_none R (elements D)) as [(r & Hr & Br & o & j & ks & ps & Er & Eo)|No].
  { intros r. unfold R. destruct (bef_dec ops OK CA x r) as [Bx|Nx]; [|tauto]. destruct (ops !! r) as [o|]; [|right; intros (_ & ? & ? & ? & ? & Q & _); discriminate].
    destruct (so_op o) as [id' pk i' ps qs|id' i' ks ps|id' pc ps] eqn:Eo.
    1,3: right; intros (_ & o' & j & ks' & ps' & Q & Q'); injection Q as <-; congruence.
    destruct (decide (id' = id)) as [-> |Ne]; [left; split; [exact Bx|]; eauto 10|right; intros (_ & o' & j & ks' & ps' & Q & Q'); injection Q as <-; congruence]. }
  - apply elem_of_elements in Hr. pose proof Hr as Bry. apply P in Bry. pose proof (CA _ _ Er) as W. rewrite Eo in W. destruct W as (D1 & t1 & h1 & P1 & _).
    destruct (IH D1 x r o id i) as (y' & H1 & H2 & H3); [|exact P1|exact St|exact Kx|exact Nr|exact Er|rewrite Eo; reflexivity|exact Br|].
    { enough (Q : D1 ⊂ D) by (apply subset_size in Q; lia). split.
      - intros z Hz. apply P. apply P1 in Hz. eapply bef_trans; eauto.
      - intros Q. apply Q, P1 in Hr. exact (bef_irr ops OK _ Hr). }
    exists y'. split; [|auto]. right. destruct H1 as [-> |H1]; [exact Bry|eapply bef_trans; eauto].
  - assert (Sy : seat ops (fun z => z ∈ D) id i).
    { destruct St as (a & o & pk & ps & qs & Ha & Ea & Eo & Rm). exists a, o, pk, ps, qs. split; [|split; [exact Ea|split; [exact Eo|]]].
      - apply P. destruct Ha as [-> |Ha]; [exact B|eapply bef_trans; eauto].
      - intros r o' j ks ps' Hr Er Eor. eapply Rm; [|exact Er|exact Eor]. destruct (AT r o' x Er) as [Q|[Q|Q]]; [rewrite Eor; reflexivity|exact Kx|left; congruence| |right; exact Q].
        exfalso. apply (No r); [apply elem_of_elements, Hr|]. split; [exact Q|]. eauto 10. }
    exists y. split; [auto|]. split; [exact B|]. exists oy. split; [exact Ey|]. pose proof (CA _ _ Ey) as W. destruct (so_op oy) as [id' pk i' ps qs|id' i' ks ps|id' pc ps] eqn:Eo; cbn [about] in Ab; subst id'.
    + destruct W as (D1 & P1 & [[-> _]|(t1 & h1 & Ds & _ & Ni)]); [apply P1 in B; set_solver|]. exfalso.
      assert (D1 = D) as -> by (apply set_eq; intros z; rewrite (P1 z), (P z); reflexivity). apply (ds_ids _ _ _ _ Ds) in Sy. congruence.
    + destruct W as (D1 & t1 & h1 & P1 & Ds & Ei & _). assert (D1 = D) as -> by (apply set_eq; intros z; rewrite (P1 z), (P z); reflexivity).
      apply (ds_ids _ _ _ _ Ds) in Sy. left. congruence.
    + destruct W as (D1 & t1 & h1 & i1 & p0 & pk & vs & rng & rng' & P1 & Ds & Ei & _ & _ & ->). assert (D1 = D) as -> by (apply set_eq; intros z; rewrite (P1 z), (P z); reflexivity).
      apply (ds_ids _ _ _ _ Ds) in Sy. cbn. congruence.
Qed.
Lemma about_seat x o : ops !! x = Some o -> (forall j ks ps, so_op o <> CRemove (about (so_op o)) j ks ps) ->
  exists i, seat ops (by_then ops x) (about (so_op o)) i /\ forall i', touches ops x i' <-> i' = i.
Proof.
  intros E Nr. pose proof (CA _ _ E) as W. destruct (so_op o) as [id pk i ps qs|id i ks ps|id pc ps] eqn:Eo; cbn [about] in *.
  - exists i. split.
    + exists x, o, pk, ps, qs. split; [left; reflexivity|]. split; [exact E|]. split; [exact Eo|]. intros r o' j ks ps' [-> |Hr] Er Eor; [|exact Hr]. rewrite E in Er. congruence.
    + intros i'. split; [intros (o' & E' & Q); rewrite E in E'; injection E' as <-; rewrite Eo in Q; exact Q|]. intros ->. exists o. rewrite Eo. auto.
  - exfalso. eapply Nr; reflexivity.
  - destruct W as (D1 & t1 & h1 & i1 & p0 & pk & vs & rng & rng' & P1 & Ds & Ei & _ & _ & ->). exists i1. split.
    + apply (ds_ids _ _ _ _ Ds) in Ei. eapply seat_ext; [|exact Ei]. intros m om Em Um. rewrite (P1 m). unfold by_then. split; [|auto]. intros [-> |H]; [|exact H].
      rewrite E in Em. injection Em as <-. rewrite Eo in Um. discriminate.
    + intros i'. split; [intros (o' & E' & Q); rewrite E in E'; injection E' as <-; rewrite Eo in Q; exact Q|]. intros ->. exists o. rewrite Eo. auto.
Qed.

(** What is alive is in force. *)
Lemma live_force D k j x o y oy : closed ops D -> live ops D k j x -> ops !! x = Some o -> (forall j ks ps, so_op o <> CRemove (about (so_op o)) j ks ps) ->
  y ∈ D -> ops !! y = Some oy -> about (so_op oy) = about (so_op o) -> ~ bef x y.
Proof.
  intros C L E Nr Hy Ey Ab B. destruct (about_seat x o E Nr) as (i & St & To).
  assert (Q : exists D0, past ops y D0).
  { pose proof (CA _ _ Ey) as W. unfold well_made in W. destruct (so_op oy); [destruct W as (D0 & P & _); eauto|destruct W as (D0 & ? & ? & P & _); eauto|].
    destruct W as (D0 & ? & ? & ? & ? & ? & ? & ? & ? & P & _). eauto. }
  destruct Q as [D0 P]. destruct (seated_touch (size D0) D0 x y oy (about (so_op o)) i) as (y' & H1 & H2 & H3); [lia|exact P|exact St|eauto| |exact Ey|exact Ab|exact B|].
  { intros o' E'. rewrite E in E'. injection E' as <-. exact Nr. }
  apply (lv_last _ _ _ _ _ L y'); [|destruct (lv_beneath _ _ _ _ _ L) as (i' & T' & A'); apply To in T' as ->; exists i; auto|exact H2].
  destruct H1 as [-> |H1]; [exact Hy|eapply closed_bef; eauto].
Qed.

(** ** Where secrets come from *)
Context (OW : one_writer ops) (FK : fresh_keys ops) (FS : fresh_secrets ops).
Lemma path_version u o id pc ps n st v : ops !! u = Some o -> so_op o = CUpdate id pc ps -> (n, st) ∈ pc_path pc -> v ∈ st -> exists k, version_of ops u k v.
Proof.
  intros E Eo Hp Hv. destruct (update_inv ops CA _ _ _ _ _ E Eo) as (D0 & t0 & h0 & i & p0 & pk & vs & M & Ep).
  apply elem_of_list_lookup in Hp as [k Hk]. pose proof Hk as Hk'. rewrite Ep in Hk'. cbn [the_path pc_path] in Hk'. unfold path_of in Hk'.
  apply lookup_zip_with_Some in Hk' as (a & b & Q & _ & _). injection Q as -> ->. apply elem_of_list_singleton in Hv as ->.
  exists k, o, id, pc, ps, (nidx a). split; [exact E|]. split; [exact Eo|]. exact Hk.
Qed.
Lemma version_messages u k v x e : version_of ops u k v -> v_sk v !! x = Some e -> es_msg e = v_pk v.
Proof.
  intros V Le. pose proof V as (o & id & pc & ps & n & E & Eo & _). destruct (update_inv ops CA _ _ _ _ _ E Eo) as (D0 & t0 & h0 & i & p0 & pk & vs & M & Ep).
  pose proof (proj1 (version_at ops _ _ _ _ _ _ _ _ _ _ _ _ _ _ E Eo Ep M) V) as L. subst pc. destruct (describes_made ops OK CA AT OW FK _ _ _ _ _ _ _ _ _ _ _ E Eo M) as [U _].
  destruct M as (rng & rng' & _ & _ & _ & _ & Ev). destruct (updated_sealed _ _ _ _ _ _ _ _ _ _ _ U Ev L) as (eph & Sl & _).
  apply (sl_entries _ _ _ _ _ Sl) in Le as [[_ ->]|(k0 & j0 & p & _ & _ & _ & ->)]; reflexivity.
Qed.
Lemma version_thrown u o k v x e : version_of ops u k v -> v_sk v = {[ x := e ]} -> ops !! u = Some o -> es_paired e ∈ thrown_keys (so_op o).
Proof.
  intros (o' & id & pc & ps & n & E & Eo & L) Ev E'. rewrite E' in E. injection E as <-. rewrite Eo. cbn [thrown_keys].
  apply elem_of_list_In, in_concat. eexists. split; [apply in_map, elem_of_list_In; eapply elem_of_list_lookup_2; exact L|]. cbn [snd map concat]. rewrite Ev, map_to_list_singleton. left. reflexivity.
Qed.
Lemma NoDup_concat_at {A} (ls : list (list A)) i j a b x : NoDup (concat ls) -> ls !! i = Some a -> ls !! j = Some b -> x ∈ a -> x ∈ b -> i = j.
Proof.
  revert i j. induction ls as [|l ls IH]; intros i j N Li Lj Ha Hb; [discriminate|]. cbn [concat] in N. apply NoDup_app in N as (_ & N2 & N3).
  assert (Q : forall k c, ls !! k = Some c -> x ∈ c -> x ∈ concat ls).
  { intros k c Lk Hc. apply elem_of_list_In, in_concat. exists c. split; apply elem_of_list_In; [eapply elem_of_list_lookup_2; exact Lk|exact Hc]. }
  destruct i as [|i], j as [|j]; cbn in Li, Lj; [reflexivity| | |f_equal; eapply IH; eauto].
  - injection Li as ->. exfalso. exact (N2 x Ha (Q _ _ Lj Hb)).
  - injection Lj as ->. exfalso. exact (N2 x Hb (Q _ _ Li Ha)).
Qed.
Lemma version_once u k k' v v' : version_of ops u k v -> version_of ops u k' v' -> v_pk v = v_pk v' -> v = v'.
Proof.
  intros (o & id & pc & ps & n & E & Eo & L) (o' & id' & pc' & ps' & n' & E' & Eo' & L') Q. rewrite E in E'. injection E' as <-. rewrite Eo in Eo'. injection Eo' as <- <- <-.
  pose proof (fs_once _ FS _ _ E) as N. rewrite Eo in N. unfold secrets in N. apply NoDup_app in N as (N & _). cbn [op_keys] in N. apply NoDup_app in N as (_ & _ & N). cbn [inner_keys] in N.
  assert (k = k') as <-; [|congruence].
  assert (A : forall k n v, pc_path pc !! k = Some (n, [v]) -> map (fun n : nat * store => map v_pk n.2) (pc_path pc) !! k = Some [v_pk v]).
  { intros k0 n0 v0 L0. exact (eq_trans (list_lookup_fmap (fun n : nat * store => map v_pk n.2) (pc_path pc) k0) (f_equal (fmap (M := option) (fun n : nat * store => map v_pk n.2)) L0)). }
  eapply (NoDup_concat_at _ k k' [v_pk v] [v_pk v'] (v_pk v)); [exact N|exact (A _ _ _ L)|exact (A _ _ _ L')|left|rewrite Q; left].
Qed.

(** ** What is seen of a kept secret is sealed with two kept ones. *)
Lemma kept_closed D t h e : describes ops D t h -> closed ops D -> seen ops e -> kept t (es_msg e) ->
  exists a b, es_key e = derive_symmetric_key a b /\ kept t a /\ kept t b.
Proof.
  intros Ds C (u & o & id & pc & ps & E & Eo & (pc' & n & st & v & x & Hpc & Hp & Hv & Le)) Kp. apply elem_of_list_singleton in Hpc as ->.
  destruct (path_version u o id pc ps n st v E Eo Hp Hv) as [k V]. rewrite (version_messages _ _ _ _ _ V Le) in Kp.
  destruct (version_key ops _ _ _ V) as (o' & E' & Ik). rewrite E in E'. injection E' as <-.
  destruct Kp as [(k0 & j0 & Nk)|(k0 & j0 & w & y & ew & Iw & Sw & Ew)].
  - destruct k0 as [|k0].
    + exfalso. unfold nkey in Nk. destruct (leafv t j0) as [[m nk]|] eqn:El; [|discriminate]. pose proof El as Q. apply (ds_leaf _ _ _ _ Ds) in Q as (z & pk & L & G & ->). cbn in Nk. injection Nk as ->.
      destruct G as (oz & Ez & G). assert (z = u) as ->.
      { symmetry. eapply (fs_apart _ FS u z o oz); [exact E|exact Ez|apply elem_of_app; left; exact Ik|]. apply elem_of_app. left.
        destruct G as [(i & ps' & qs & ->)|(pc1 & ps' & -> & _ & Q)]; cbn [op_keys]; [left|]. rewrite Q. apply elem_of_app. left. left. }
      rewrite E in Ez. injection Ez as <-. rewrite Eo in G. destruct G as [(i & ps' & qs & Q)|(pc1 & ps' & Q & _ & Q')]; [discriminate|]. injection Q as <- <-.
      pose proof (fs_once _ FS _ _ E) as N. unfold secrets in N. apply NoDup_app in N as (N & _). rewrite Eo in N, Ik. cbn [op_keys] in N. rewrite Q' in N. apply NoDup_app in N as (_ & N & _).
      apply (N (v_pk v)); [left|exact Ik].
    + apply nkey_inner in Nk as (w & Iw & Ew). destruct (alone_covers ops OK CA AT FK D t h k0 j0 w Ds C Iw) as (z & L & Vz & _).
      assert (z = u) as -> by (eapply (version_inj ops FK); eauto). assert (w = v) as -> by (eapply version_once; eauto).
      destruct (describes_keyed ops OK CA AT OW FK D t h Ds C) as [_ Ky]. destruct (Ky _ _ _ Iw) as (c & eph & Hc & Sl).
      pose proof Le as Q. apply (sl_entries _ _ _ _ _ Sl) in Q as [[-> ->]|(k1 & j1 & p & Re & Kp & -> & ->)].
      * exists (v_encrypter v), eph. split; [reflexivity|]. split; [left; exists k0, c; apply Sl|].
        destruct (resn t k0 (sib c)) as [|[k1 j1] r] eqn:R.
        -- right. exists k0, j0, v, (node k0 c), (encrypt_secret (v_pk v) (v_encrypter v) eph). split; [exact Iw|]. split; [|reflexivity]. apply map_eq. intros y. apply option_eq. intros e'.
           rewrite (sl_entries _ _ _ _ _ Sl), lookup_singleton_Some. split; [intros [[-> ->]|(k1 & j1 & p & Re & _)]; [auto|]|intros [<- <-]; auto].
           exfalso. apply resn_spec in Re. rewrite R in Re. inversion Re.
        -- assert (Re : in_resolution t k0 (sib c) k1 j1) by (apply resn_spec; rewrite R; left). destruct (sl_eph _ _ _ _ _ Sl _ _ Re) as (k2 & j2 & _ & K2). left. eauto.
      * exists (v_encrypter v), p. split; [reflexivity|]. split; [left; exists k0, c; apply Sl|left; eauto].
  - exfalso. destruct (alone_covers ops OK CA AT FK D t h k0 j0 w Ds C Iw) as (z & L & Vz & _). pose proof Vz as (oz & idz & pcz & psz & nz & Ez & _).
    pose proof (version_thrown z oz k0 w y ew Vz Sw Ez) as Tz. rewrite Ew in Tz. assert (z = u) as ->.
    { eapply (fs_apart _ FS z u oz o); [exact Ez|exact E|apply elem_of_app; right; exact Tz|]. apply elem_of_app. left. apply inner_op_keys. exact Ik. }
    rewrite E in Ez. injection Ez as <-. pose proof (fs_once _ FS _ _ E) as N. unfold secrets in N. apply NoDup_app in N as (_ & N & _). apply (N (v_pk v)); [apply inner_op_keys, Ik|exact Tz].
Qed.

(** Kept secrets came with operations in force. *)
Definition forceful (D : gset digest) (x : digest) : Prop :=
  x ∈ D /\ forall y o o', y ∈ D -> ops !! x = Some o -> ops !! y = Some o' -> about (so_op o') = about (so_op o) -> ~ bef x y.
Lemma kept_force D t h s : describes ops D t h -> closed ops D -> kept t s -> exists x o, ops !! x = Some o /\ s ∈ secrets (so_op o) /\ forceful D x.
Proof.
  intros Ds C Kp.
  assert (F : forall k j x o, live ops D k j x -> ops !! x = Some o -> (forall j ks ps, so_op o <> CRemove (about (so_op o)) j ks ps) -> forceful D x).
  { intros k j x o L E Nr. split; [apply L|]. intros y o1 o' Hy E1 Ey Ab. rewrite E in E1. injection E1 as <-. eapply live_force; eauto. }
  assert (U : forall x k v o, version_of ops x k v -> ops !! x = Some o -> forall j ks ps, so_op o <> CRemove (about (so_op o)) j ks ps).
  { intros x k v o (o' & id & pc & ps & n & E & Eo & _) E' j ks ps'. rewrite E in E'. injection E' as <-. rewrite Eo. discriminate. }
  destruct Kp as [(k0 & j0 & Nk)|(k0 & j0 & w & y & ew & Iw & Sw & Ew)].
  - destruct k0 as [|k0].
    + unfold nkey in Nk. destruct (leafv t j0) as [[m nk]|] eqn:El; [|discriminate]. pose proof El as Q. apply (ds_leaf _ _ _ _ Ds) in Q as (z & pk & L & G & ->). cbn in Nk. injection Nk as ->.
      destruct (gives_op_key ops _ _ _ G) as (oz & Ez & Hk). exists z, oz. split; [exact Ez|]. split; [apply elem_of_app; left; exact Hk|]. eapply F; [exact L|exact Ez|].
      intros j ks ps. destruct G as (o' & E' & G). rewrite Ez in E'. injection E' as <-. destruct G as [(i & ps' & qs & ->)|(pc1 & ps' & -> & _)]; discriminate.
    + apply nkey_inner in Nk as (w & Iw & <-). destruct (alone_covers ops OK CA AT FK D t h k0 j0 w Ds C Iw) as (z & L & Vz & _). destruct (version_key ops _ _ _ Vz) as (oz & Ez & Ik).
      exists z, oz. split; [exact Ez|]. split; [apply elem_of_app; left; apply inner_op_keys, Ik|]. eapply F; [exact L|exact Ez|eapply U; eauto].
  - destruct (alone_covers ops OK CA AT FK D t h k0 j0 w Ds C Iw) as (z & L & Vz & _). pose proof Vz as (oz & idz & pcz & psz & nz & Ez & _).
    exists z, oz. split; [exact Ez|]. split; [apply elem_of_app; right; rewrite <- Ew; eapply version_thrown; eauto|]. eapply F; [exact L|exact Ez|eapply U; eauto].
Qed.

Theorem kept_shut D t h (K : secret_key -> Prop) : describes ops D t h -> closed ops D ->
  (forall s x o, K s -> ops !! x = Some o -> s ∈ secrets (so_op o) -> ~ forceful D x) ->
  forall s, derivable K (seen ops) s -> ~ kept t s.
Proof.
  intros Ds C HK s Dv. induction Dv as [s Ks|e s p Se _ IH Ek]; intros Kp.
  - destruct (kept_force D t h s Ds C Kp) as (x & o & E & Hs & Fx). exact (HK s x o Ks E Hs Fx).
  - destruct (kept_closed D t h e Ds C Se Kp) as (a & b & Ek' & Ka & Kb). rewrite Ek in Ek'. apply derive_halves in Ek' as [-> | ->]; auto.
Qed.

(** Whoever an operation in force is about is a member. *)
Lemma force_member h x o : in_force ops h x -> ops !! x = Some o -> is_Some (ops !! h) -> (forall j ks ps, so_op o <> CRemove (about (so_op o)) j ks ps) -> member_at ops (about (so_op o)) h.
Proof.
  intros [Bx F] E Kh Nr. destruct (about_seat x o E Nr) as (i & (a & oa & pk & ps & qs & Ha & Ea & Eoa & Rm) & _). exists i, a, oa, pk, ps, qs.
  assert (Up : forall z, by_then ops x z -> by_then ops h z).
  { intros z [-> |Hz]; [exact Bx|]. destruct Bx as [-> |Bx]; [right; exact Hz|right; eapply bef_trans; eauto]. }
  split; [apply Up, Ha|]. split; [exact Ea|]. split; [exact Eoa|]. intros r o' j ks ps' Hr Er Eor. eapply Rm; [|exact Er|exact Eor].
  destruct (AT r o' x Er) as [Q|[Q|Q]]; [rewrite Eor; reflexivity|eauto|left; congruence| |right; exact Q].
  exfalso. apply (F r o o' Hr E Er); [rewrite Eor; reflexivity|exact Q].
Qed.

(** ** Members *)
Lemma member_opens D t h i p (K : secret_key -> Prop) : describes ops D t h -> closed ops D -> nkey t 0 i = Some p -> K p ->
  forall k q, nkey t k (anc i k) = Some q -> derivable K (seen ops) q.
Proof.
  intros Ds Cl Hp Kp k. destruct (describes_keyed ops OK CA AT OW FK D t h Ds Cl) as [_ Ky].
  assert (AP : forall k j v x e, innerv t k j = Some [v] -> v_sk v !! x = Some e -> seen ops e).
  { intros k1 j v x e Iv Le. destruct (alone_covers ops OK CA AT FK D t h k1 j v Ds Cl Iv) as (z & L & (oz & idz & pcz & psz & nz & Ez & Eoz & Lz) & _).
    exists z, oz, idz, pcz, psz. split; [exact Ez|]. split; [exact Eoz|]. exists pcz, nz, [v], v, x. split; [left|]. split; [eapply elem_of_list_lookup_2; exact Lz|]. split; [left|exact Le]. }
  induction (lt_wf k) as [k _ IH]. intros q E. destruct k as [|k].
  - rewrite anc_0, Hp in E. injection E as <-. apply derivable_known, Kp.
  - apply nkey_inner in E as (v & Ev & <-). destruct (Ky _ _ _ Ev) as (c & eph & Hc & Sl).
    assert (Hc' : c / 2 = anc i k / 2) by (rewrite Hc, <- anc_S'; reflexivity).
    assert (C : c = anc i k \/ sib c = anc i k).
    { destruct (even_odd_case c) as [E1|E1], (even_odd_case (anc i k)) as [E2|E2]; rewrite Hc' in E1.
      - left. congruence.
      - right. rewrite E1, sib_even. symmetry. exact E2.
      - right. rewrite E1, sib_odd. symmetry. exact E2.
      - left. congruence. }
    destruct C as [-> |C].
    + set (e := encrypt_secret (v_pk v) (v_encrypter v) eph). assert (Le : v_sk v !! node k (anc i k) = Some e) by (apply (sl_entries _ _ _ _ _ Sl); auto).
      change (v_pk v) with (es_msg e). eapply (derivable_open _ _ e (v_encrypter v) eph); [eapply AP; eauto| |reflexivity].
      apply (IH k); [lia|apply Sl].
    + destruct (top_on_path t i p Hp k) as (k0 & L0 & Re). rewrite <- C in Re. pose proof Re as (_ & [r Er] & _).
      set (e := encrypt_secret (v_pk v) (v_encrypter v) r).
      assert (Le : v_sk v !! node k0 (anc i k0) = Some e) by (apply (sl_entries _ _ _ _ _ Sl); right; exists k0, (anc i k0), r; auto).
      change (v_pk v) with (es_msg e). eapply (derivable_open _ _ e r (v_encrypter v)); [eapply AP; eauto| |apply derive_sym].
      apply (IH k0); [lia|exact Er].
Qed.
End world.
