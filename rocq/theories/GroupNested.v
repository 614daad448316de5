(** Access through groups in groups. *)
From Coq Require Import Arith Lia.
From stdpp Require Import base list gmap relations sorting.
From Verif Require Import AccessModel GroupModel CgkaSpec GroupSpec GroupProofs GroupReplay GroupMembers GroupHistory GroupTransitive GroupPropsProofs GroupNestedSpec.

Lemma amin_rank a b : rank (amin a b) = Nat.min (rank a) (rank b).
Proof. unfold amin, ale. destruct (Nat.leb_spec (rank a) (rank b)); lia. Qed.
Lemma amax_or a b : amax a b = a \/ amax a b = b.
Proof. unfold amax. destruct (ale a b); auto. Qed.
Lemma amin_admin a : amin a Admin = a.
Proof. destruct a; reflexivity. Qed.
Lemma amin_comm a b : amin a b = amin b a.
Proof. destruct a, b; reflexivity. Qed.

Section nested.
Context (order : gset nat -> list nat) (Hord : some_order order) (e : env) (HS : sane e).

(** ** What the loop does to its state *)
Lemma push_fold_stack k best l : forall stack seen stack' seen', foldl (push_step k best) (stack, seen) l = (stack', seen') ->
  exists new, stack' = new ++ stack /\ (forall x, x ∈ new -> exists d, d ∈ l /\ x = (d_delegate d, d_can d, best)) /\
    (forall s, s ∈ seen' -> s ∈ seen \/ exists d, d ∈ l /\ s = (d_sig d, k)) /\
    ((exists d, d ∈ l /\ (d_sig d, k) ∉ seen) -> exists d, d ∈ l /\ (d_delegate d, d_can d, best) ∈ new).
Proof.
  induction l as [|d l IH]; intros stack seen stack' seen' E; cbn [foldl] in E.
  - injection E as <- <-. exists []. split; [reflexivity|]. split; [intros x H; inversion H|]. split; [auto|]. intros (d & H & _). inversion H.
  - cbn [push_step] in E. destruct (decide ((d_sig d, k) ∈ seen)) as [Y|N].
    + destruct (IH _ _ _ _ E) as (new & -> & A & B & C). exists new. split; [reflexivity|]. split; [|split].
      * intros x H. destruct (A _ H) as (d' & Hd & ->). exists d'. split; [right; exact Hd|reflexivity].
      * intros s H. destruct (B _ H) as [Z|(d' & Hd & ->)]; [auto|]. right. exists d'. split; [right; exact Hd|reflexivity].
      * intros (d' & Hd & Z). destruct C as (d2 & H2 & H3).
        { exists d'. split; [|exact Z]. apply elem_of_cons in Hd as [-> |Hd]; [contradiction|exact Hd]. }
        exists d2. split; [right; exact H2|exact H3].
    + destruct (IH _ _ _ _ E) as (new & -> & A & B & C). exists (new ++ [(d_delegate d, d_can d, best)]). split; [rewrite <- app_assoc; reflexivity|]. split; [|split].
      * intros x H. apply elem_of_app in H as [H|H]; [destruct (A _ H) as (d' & Hd & ->); exists d'; split; [right; exact Hd|reflexivity]|].
        apply elem_of_list_singleton in H as ->. exists d. split; [left|reflexivity].
      * intros s H. destruct (B _ H) as [Z|(d' & Hd & ->)]; [|right; exists d'; split; [right; exact Hd|reflexivity]].
        apply elem_of_union in Z as [Z|Z]; [|auto]. apply elem_of_singleton in Z as ->. right. exists d. split; [left|reflexivity].
      * intros _. exists d. split; [left|]. apply elem_of_app. right. apply elem_of_list_singleton. reflexivity.
Qed.
Lemma member_fold_stack m mems best xs : e !! m = Some mems -> (forall i, i ∈ xs -> is_Some (mems !! i)) -> NoDup xs ->
  forall stack seen caps stack' seen' caps', foldl (member_step mems best) (stack, seen, caps) xs = (stack', seen', caps') ->
  exists new, stack' = new ++ stack /\
    (forall x, x ∈ new -> exists i l d, i ∈ xs /\ mems !! i = Some l /\ d ∈ l /\ x = (i, d_can d, best)) /\
    (forall s, s ∈ seen' -> s ∈ seen \/ exists i l d, mems !! i = Some l /\ d ∈ l /\ s.1 = d_sig d) /\
    (forall i, i ∈ xs -> caps' !! i = Some best) /\ (forall i, i ∉ xs -> caps' !! i = caps !! i) /\
    ((forall i l d k, i ∈ xs -> mems !! i = Some l -> d ∈ l -> (d_sig d, k) ∉ seen) -> forall i, i ∈ xs -> i ∈ ids new).
Proof.
  intros Em. induction xs as [|i xs IH]; intros Hx ND stack seen caps stack' seen' caps' E; cbn [foldl] in E.
  - injection E as <- <- <-. exists []. split; [reflexivity|]. split; [intros x H; inversion H|]. split; [auto|]. split; [intros i H; inversion H|]. split; [auto|]. intros _ i H. inversion H.
  - apply NoDup_cons in ND as [Ni ND]. destruct (Hx i) as [l El]; [left|]. destruct (proj1 HS _ _ _ _ Em El) as [Nl Dl]. destruct (best_dlg_some l Nl) as [c Ec].
    assert (Q : member_step mems best (stack, seen, caps) i =
      let '(stack, seen) := foldl (push_step (rank (d_can c)) best) (stack, seen) l in (stack, seen, <[i := best]> caps)).
    { cbn [member_step]. unfold get_capability. rewrite El, Ec. reflexivity. }
    rewrite Q in E. destruct (foldl (push_step _ _) _ _) as [st1 sn1] eqn:E1. destruct (push_fold_stack _ _ _ _ _ _ _ E1) as (n1 & -> & A1 & B1 & C1).
    destruct (IH ltac:(intros; apply Hx; right; assumption) ND _ _ _ _ _ _ E) as (n2 & -> & A2 & B2 & C2 & D2 & F2).
    exists (n2 ++ n1). split; [rewrite <- app_assoc; reflexivity|]. split; [|split; [|split; [|split]]].
    + intros x H. apply elem_of_app in H as [H|H].
      * destruct (A2 _ H) as (j & l' & d & Hj & R). exists j, l', d. split; [right; exact Hj|exact R].
      * destruct (A1 _ H) as (d & Hd & ->). exists i, l, d. split; [left|]. rewrite (Dl _ Hd). auto.
    + intros s H. destruct (B2 _ H) as [Z|Z]; [|auto]. destruct (B1 _ Z) as [Y|(d & Hd & ->)]; [auto|]. right. exists i, l, d. auto.
    + intros j H. apply elem_of_cons in H as [-> |H]; [|apply C2, H]. rewrite D2 by exact Ni. apply lookup_insert.
    + intros j H. apply not_elem_of_cons in H as [H1 H2]. rewrite D2 by exact H2. apply lookup_insert_ne. congruence.
    + intros Fr j H. unfold ids. rewrite map_app. apply elem_of_app. apply elem_of_cons in H as [-> |H].
      * right. destruct C1 as (d & Hd & H). { exists c. split; [apply best_dlg_in, Ec|]. apply (Fr i l c); [left|exact El|apply best_dlg_in, Ec]. }
        apply elem_of_list_fmap. exists (d_delegate d, d_can d, best). split; [symmetry; apply (Dl _ Hd)|exact H].
      * left. apply F2; [|exact H].
        intros j' l' d k Hj Hl Hd Z. destruct (B1 _ Z) as [Y|(d' & Hd' & Y)]; [apply (Fr j' l' d k); [right; exact Hj|exact Hl|exact Hd|exact Y]|].
        injection Y as Y _. assert (d = d') as -> by (apply (proj2 HS _ _ _ _ _ _ _ _ _ _ Em Hl Hd Em El Hd' Y)).
        apply Ni. rewrite <- (Dl _ Hd'), (proj2 (proj1 HS _ _ _ _ Em Hl) _ Hd). exact Hj.
Qed.

(** ** Groups whose members' members are individuals *)
Context (self : ident) (smems : gmap ident (list dlg)) (Hself : e !! self = Some smems).
Context (Hown : forall g mems i l d, e !! g = Some mems -> mems !! i = Some l -> d ∈ l -> d_subject d = g).
Context (Htwo : forall m mems i, m <> self -> direct e self m -> e !! m = Some mems -> is_Some (mems !! i) -> i = self \/ e !! i = None).

Definition team (i : ident) : Prop := is_Some (e !! i) /\ i <> self.
Instance team_dec i : Decision (team i).
Proof. unfold team. apply _. Defined.

Record fair (stack : list entry) (seen : gset (sig * nat)) (caps : gmap ident access) : Prop := {
  fa_stack : forall m acc par, (m, acc, par) ∈ stack -> grants e self m (amin acc par);
  fa_team : forall m acc par, (m, acc, par) ∈ stack -> team m -> direct e self m /\ grants e self m acc;
  fa_once : NoDup (filter team (ids stack));
  fa_caps : forall i a, i <> self -> caps !! i = Some a -> grants e self i a \/ (i ∈ ids stack /\ ~ team i);
  fa_seen : forall m mems i l d k, m ∈ ids stack -> team m -> e !! m = Some mems -> mems !! i = Some l -> d ∈ l -> (d_sig d, k) ∉ seen
}.
Lemma fair_loop f : forall stack seen caps caps', fair stack seen caps -> transitive_loop order f e self stack seen caps = Some caps' ->
  forall i a, i <> self -> caps' !! i = Some a -> grants e self i a.
Proof.
  induction f as [|f IH]; intros [|[[m acc] par] stack] seen caps caps' I E.
  1,3: cbn in E; injection E as <-; intros i a N C; destruct (fa_caps _ _ _ I i a N C) as [G|[G _]]; [exact G|inversion G].
  { discriminate. }
  rewrite transitive_unfold in E. destruct I as [I1 I2 I3 I4 I5].
  destruct (Nat.eqb_spec m self) as [-> |Nm].
  { revert E. apply IH. constructor.
    - intros m' a' p' H. apply I1. right. exact H.
    - intros m' a' p' H. apply I2 with p'. right. exact H.
    - cbn [ids map fst snd] in I3. rewrite filter_cons_False in I3; [exact I3|]. intros [_ N]. apply N. reflexivity.
    - intros i a N C. destruct (I4 i a N C) as [G|[G T]]; [auto|]. right. split; [|exact T]. cbn in G. apply elem_of_cons in G as [-> |G]; [contradiction|exact G].
    - intros m' mems i l d k H. apply I5. right. exact H. }
  cbv zeta in E. set (best := match caps !! m with Some x => amax x acc | None => acc end) in E.
  pose proof (I1 _ _ _ (elem_of_list_here _ _)) as Gm.
  destruct (e !! m) as [mems|] eqn:Em.
  - assert (Tm : team m) by (split; [rewrite Em; eauto|exact Nm]).
    destruct (I2 _ _ _ (elem_of_list_here _ _) Tm) as [Dm Ga].
    assert (Gb : grants e self m best).
    { unfold best. destruct (caps !! m) as [x|] eqn:Cm; [|exact Ga]. destruct (amax_or x acc) as [-> | ->]; [|exact Ga].
      destruct (I4 _ _ Nm Cm) as [G|[_ G]]; [exact G|contradiction]. }
    destruct (foldl _ _ _) as [[st sn] cp] eqn:F in E.
    assert (Ho : NoDup (order (dom mems))) by (rewrite (Hord (dom mems)); apply NoDup_elements).
    assert (Hx : forall i, i ∈ order (dom mems) <-> is_Some (mems !! i)) by (intros i; apply (order_dom order Hord)).
    destruct (member_fold_stack m mems best _ Em (fun i => proj1 (Hx i)) Ho _ _ _ _ _ _ F) as (new & -> & A & B & C & D & K).
    assert (Hn : forall i, i ∈ ids new -> ~ team i /\ is_Some (mems !! i)).
    { intros i H. unfold ids in H. apply elem_of_list_fmap in H as (x & -> & H). destruct (A _ H) as (i & l & d & Hi & _ & _ & ->). cbn. apply Hx in Hi.
      split; [|exact Hi]. intros [T N]. destruct (Htwo m mems i Nm Dm Em Hi) as [Z|Z]; [contradiction|]. rewrite Z in T. destruct T; discriminate. }
    cbn [ids map fst snd] in I3. rewrite filter_cons_True in I3 by exact Tm. apply NoDup_cons in I3 as [Om I3].
    revert E. apply IH. constructor.
    + intros m' a' p' H. apply elem_of_app in H as [H|H]; [|apply I1; right; exact H]. destruct (A _ H) as (i & l & d & _ & Hl & Hd & [= -> -> ->]).
      rewrite amin_comm. apply grants_through with m; [exact Gb|]. eapply grants_direct; eauto.
    + intros m' a' p' H T. apply elem_of_app in H as [H|H]; [|apply I2 with p'; [right; exact H|exact T]]. exfalso.
      apply (proj1 (Hn m' ltac:(unfold ids; apply elem_of_list_fmap; exists (m', a', p'); auto)) T).
    + unfold ids. rewrite map_app, filter_app. replace (filter team (map (fun x : entry => x.1.1) new)) with (@nil ident); [exact I3|]. symmetry.
      change (filter team (ids new) = []). revert Hn. clear. intros Hn. induction (ids new) as [|i l IH]; [reflexivity|]. rewrite filter_cons_False.
      * apply IH. intros j H. apply Hn. right. exact H.
      * apply Hn. left.
    + intros i a N Ci. destruct (decide (i ∈ order (dom mems))) as [Hi|Hi].
      * right. split.
        -- unfold ids. rewrite map_app. apply elem_of_app. left. apply K; [|exact Hi]. intros i' l d k _. apply (I5 m); [left|exact Tm|exact Em].
        -- intros T. apply Hx in Hi. destruct (Htwo m mems i Nm Dm Em Hi) as [Z|Z]; [contradiction|]. destruct T as [T _]. rewrite Z in T. destruct T; discriminate.
      * rewrite D in Ci by exact Hi. destruct (decide (i = m)) as [-> |Ni]; [rewrite lookup_insert in Ci; injection Ci as <-; auto|].
        rewrite lookup_insert_ne in Ci by congruence. destruct (I4 i a N Ci) as [G|[G T]]; [auto|]. right. split; [|exact T].
        cbn in G. apply elem_of_cons in G as [-> |G]; [contradiction|]. unfold ids. rewrite map_app. apply elem_of_app. right. exact G.
    + intros m' mems' i l d k H T E1 E2 Hd Z. unfold ids in H. rewrite map_app in H. apply elem_of_app in H as [H|H]; [apply (Hn _ H), T|].
      destruct (B _ Z) as [Y|(i' & l' & d' & F1 & F2 & F3)]; [revert Y; eapply (I5 m'); [right; exact H|exact T|exact E1|exact E2|exact Hd]|]. cbn in F3.
      assert (d = d') as -> by (apply (proj2 HS _ _ _ _ _ _ _ _ _ _ E1 E2 Hd Em F1 F2 F3)).
      assert (m' = m) as -> by (rewrite <- (Hown _ _ _ _ _ E1 E2 Hd); apply (Hown _ _ _ _ _ Em F1 F2)).
      apply Om, elem_of_list_filter. split; [exact T|exact H].
  - assert (Tm : ~ team m) by (intros [[? T] _]; congruence).
    revert E. apply IH. constructor.
    + intros m' a' p' H. apply I1. right. exact H.
    + intros m' a' p' H. apply I2 with p'. right. exact H.
    + cbn [ids map fst snd] in I3. rewrite filter_cons_False in I3; [exact I3|exact Tm].
    + intros i a N C. destruct (decide (i = m)) as [-> |Ni]; [rewrite lookup_insert in C; injection C as <-; auto|].
      rewrite lookup_insert_ne in C by congruence. destruct (I4 i a N C) as [G|[G T]]; [auto|]. right. split; [|exact T].
      cbn in G. apply elem_of_cons in G as [-> |G]; [contradiction|exact G].
    + intros m' mems i l d k H. apply I5. right. exact H.
Qed.
Lemma first_capabilities : forall d, d ∈ omap (get_capability smems) (order (dom smems)) ->
  exists l, smems !! d_delegate d = Some l /\ d ∈ l.
Proof.
  intros d H. apply elem_of_list_omap in H as (i & _ & G). unfold get_capability in G. destruct (smems !! i) as [l|] eqn:L; [|discriminate].
  apply best_dlg_in in G. exists l. rewrite (proj2 (proj1 HS _ _ _ _ Hself L) _ G). auto.
Qed.
Lemma capability_ids : map d_delegate (omap (get_capability smems) (order (dom smems))) = order (dom smems).
Proof.
  assert (W : forall i, i ∈ order (dom smems) -> is_Some (smems !! i)) by (intros i Hi; apply (order_dom order Hord), Hi).
  induction (order (dom smems)) as [|i l IH]; [reflexivity|]. cbn. destruct (W i (elem_of_list_here _ _)) as [x Mx].
  unfold get_capability at 1. rewrite Mx. destruct (proj1 HS _ _ _ _ Hself Mx) as [Nx Dx]. destruct (best_dlg_some x Nx) as [y Y]. rewrite Y. cbn.
  rewrite (Dx _ (best_dlg_in _ _ Y)). f_equal. apply IH. intros j Hj. apply W. right. exact Hj.
Qed.
Lemma two_levels_sound caps : transitive_members order e self smems = Some caps ->
  forall i a, i <> self -> caps !! i = Some a -> grants e self i a.
Proof.
  intros E. unfold transitive_members in E. cbv zeta in E. pose proof first_capabilities as FC. pose proof capability_ids as CI.
  set (cs := omap (get_capability smems) (order (dom smems))) in *. revert E. apply fair_loop.
  assert (X : forall m acc par, (m, acc, par) ∈ reverse (map (fun d => (d_delegate d, d_can d, Admin)) cs) -> par = Admin /\ grants e self m acc /\ direct e self m).
  { intros m acc par H. rewrite elem_of_reverse, elem_of_list_fmap in H. destruct H as (d & [= -> -> ->] & H). destruct (FC _ H) as (l & L & Hd).
    split; [reflexivity|]. split; [eapply grants_direct; eauto|]. exists smems. eauto. }
  constructor.
  - intros m acc par H. destruct (X _ _ _ H) as (-> & G & _). rewrite amin_admin. exact G.
  - intros m acc par H _. destruct (X _ _ _ H) as (-> & G & D). auto.
  - apply NoDup_filter. unfold ids. change (NoDup ((fun x : entry => x.1.1) <$> reverse (map (fun d => (d_delegate d, d_can d, Admin)) cs))).
    rewrite fmap_reverse, reverse_Permutation. change (NoDup (map (fun x : entry => x.1.1) (map (fun d => (d_delegate d, d_can d, Admin)) cs))). rewrite map_map. cbn.
    change (NoDup (map d_delegate cs)). rewrite CI, (Hord (dom smems)). apply NoDup_elements.
  - intros i a _ H. rewrite lookup_empty in H. discriminate.
  - intros m mems i l d k _ [_ N] E1 E2 Hd H. apply elem_of_list_to_set, elem_of_list_fmap in H as (d' & [= Q _] & H).
    destruct (FC _ H) as (l' & L & Hd'). assert (d = d') as -> by (apply (proj2 HS _ _ _ _ _ _ _ _ _ _ E1 E2 Hd Hself L Hd' Q)).
    apply N. rewrite <- (Hown _ _ _ _ _ E1 E2 Hd). apply (Hown _ _ _ _ _ Hself L Hd').
Qed.
End nested.

(** ** Any nesting: between the least and the greatest access that is delegated anywhere *)
Section bounds.
Context (order : gset nat -> list nat) (Hord : some_order order) (e : env) (HS : sane e) (lo hi : nat).
Context (self : ident) (smems : gmap ident (list dlg)) (Hself : e !! self = Some smems).
Context (Hb : forall g mems i l d, g = self \/ belongs e self g -> e !! g = Some mems -> mems !! i = Some l -> d ∈ l -> lo <= rank (d_can d) <= hi).
Definition within (a : access) : Prop := lo <= rank a <= hi.
Record bounded (stack : list entry) (caps : gmap ident access) : Prop := {
  bo_stack : forall m acc par, (m, acc, par) ∈ stack -> belongs e self m /\ within acc /\ lo <= rank par;
  bo_caps : forall i a, caps !! i = Some a -> within a
}.
Lemma bounded_loop f : forall stack seen caps caps', bounded stack caps -> transitive_loop order f e self stack seen caps = Some caps' ->
  forall i a, caps' !! i = Some a -> within a.
Proof.
  induction f as [|f IH]; intros [|[[m acc] par] stack] seen caps caps' I E.
  1,3: cbn in E; injection E as <-; apply (bo_caps _ _ I).
  { discriminate. }
  rewrite transitive_unfold in E. destruct I as [I1 I2]. destruct (I1 _ _ _ (elem_of_list_here _ _)) as (Bm & Wa & Wp).
  destruct (Nat.eqb_spec m self) as [-> |Nm].
  { revert E. apply IH. constructor; [|exact I2]. intros m' a' p' H. apply I1. right. exact H. }
  cbv zeta in E. set (best := match caps !! m with Some x => amax x acc | None => acc end) in E.
  assert (Wm : within (amin acc par)) by (unfold within in *; rewrite amin_rank; lia).
  assert (Wb : within best).
  { unfold best. destruct (caps !! m) as [x|] eqn:C; [|exact Wa]. destruct (amax_or x acc) as [-> | ->]; [eapply I2; eauto|exact Wa]. }
  assert (W0 : forall i a, <[m := amin acc par]> caps !! i = Some a -> within a).
  { intros i a H. destruct (decide (i = m)) as [-> |N]; [rewrite lookup_insert in H; injection H as <-; exact Wm|]. rewrite lookup_insert_ne in H by congruence. eapply I2; eauto. }
  destruct (e !! m) as [mems|] eqn:Em; [|revert E; apply IH; constructor; [intros m' a' p' H; apply I1; right; exact H|exact W0]].
  destruct (foldl _ _ _) as [[st sn] cp] eqn:F in E.
  assert (Ho : NoDup (order (dom mems))) by (rewrite (Hord (dom mems)); apply NoDup_elements).
  assert (Hx : forall i, i ∈ order (dom mems) <-> is_Some (mems !! i)) by (intros i; apply (order_dom order Hord)).
  destruct (member_fold_stack e HS m mems best _ Em (fun i => proj1 (Hx i)) Ho _ _ _ _ _ _ F) as (new & -> & A & _ & C & D & _).
  revert E. apply IH. constructor.
  - intros m' a' p' H. apply elem_of_app in H as [H|H]; [|apply I1; right; exact H]. destruct (A _ H) as (i & l & d & Hi & Hl & Hd & [= -> -> ->]).
    split; [eapply tc_r; [exact Bm|]; exists mems; eauto|]. split; [eapply Hb; [right; exact Bm|exact Em|exact Hl|exact Hd]|apply Wb].
  - intros i a H. destruct (decide (i ∈ order (dom mems))) as [Y|N]; [rewrite (C _ Y) in H; injection H as <-; exact Wb|]. rewrite (D _ N) in H. eapply W0; eauto.
Qed.
Lemma bounds_lemma caps : transitive_members order e self smems = Some caps -> hi <= rank Admin -> forall i a, caps !! i = Some a -> within a.
Proof.
  intros E Hh. unfold transitive_members in E. cbv zeta in E. revert E. apply bounded_loop. constructor; [|intros i a H; rewrite lookup_empty in H; discriminate].
  intros m acc par H. rewrite elem_of_reverse, elem_of_list_fmap in H. destruct H as (d & [= -> -> ->] & H).
  destruct (first_capabilities order e HS self smems Hself d H) as (l & L & Hd). assert (W : within (d_can d)) by (eapply Hb; [left; reflexivity|exact Hself|exact L|exact Hd]).
  split; [apply tc_once; exists smems; eauto|]. split; [exact W|]. unfold within in W. lia.
Qed.
End bounds.

(** ** Delegations that are accepted because of a team *)
Section accepted.
Context (order : gset nat -> list nat) (Hord : some_order order) (e : env) (HS : sane e) (HO : by_subject e).
Lemma two_levels_member g i a : two_levels e g -> i <> g -> is_transitive_member_of order e g i a = true -> exists b, grants e g i b /\ rank a <= rank b.
Proof.
  intros T N H. unfold is_transitive_member_of in H. destruct (e !! g) as [mems|] eqn:E; [|discriminate].
  destruct (transitive_members order e g mems) as [caps|] eqn:C; [|discriminate]. destruct (caps !! i) as [b|] eqn:B; [|discriminate].
  exists b. split; [|apply ale_rank, H]. apply (two_levels_sound order Hord e HS g mems E HO) with (caps := caps); [|exact C|exact N|exact B].
  intros m ms j Nm D Em Hj. apply (T m j Nm D). exists ms. auto.
Qed.
Lemma bounded_member g i a lo hi : delegates_within e g lo hi -> is_transitive_member_of order e g i a = true -> rank a <= rank hi.
Proof.
  intros T H. unfold is_transitive_member_of in H. destruct (e !! g) as [mems|] eqn:E; [|discriminate].
  destruct (transitive_members order e g mems) as [caps|] eqn:C; [|discriminate]. destruct (caps !! i) as [b|] eqn:B; [|discriminate].
  apply ale_rank in H. assert (W : within (rank lo) (rank hi) b).
  { eapply (bounds_lemma order Hord e HS (rank lo) (rank hi) g mems E); [exact T|exact C|destruct hi; cbn; lia|exact B]. }
  unfold within in W. lia.
Qed.
Lemma chain_link can d : check_chain order e can d (lineage d) = None -> forall a p, in_chain d a -> rests_on a p ->
  d_issuer a = d_delegate p \/ (d_issuer a <> d_delegate p /\ is_transitive_member_of order e (d_delegate p) (d_issuer a) can = true).
Proof.
  intros H a p C R. revert H. induction C as [d|d q a S _ IH]; intros H.
  - unfold rests_on in R. rewrite (lineage_proof _ _ R) in H. cbn in H. destruct (ale can (d_can p)) eqn:L; cbn in H; [|discriminate].
    destruct (Nat.eqb_spec (d_issuer d) (d_delegate p)) as [Z|Z]; [auto|]. cbn in H.
    destruct (is_transitive_member_of order e (d_delegate p) (d_issuer d) can) eqn:T; [auto|discriminate].
  - unfold rests_on in S. rewrite (lineage_proof _ _ S) in H. cbn in H. destruct (ale can (d_can q)); cbn in H; [|discriminate].
    destruct (_ && _); [discriminate|]. apply IH; auto.
Qed.
End accepted.
