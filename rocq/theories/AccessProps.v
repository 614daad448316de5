(** Access levels (C16). *)
From Coq Require Import Arith Lia.
From stdpp Require Import base list gmap.
From Verif Require Import AccessModel GroupModel.

(** ** C16.  The four levels form a chain: relay, read, edit, admin. *)
Theorem C16_chain a b :
  ale a b = match a, b with
            | Relay, _ => true
            | Read, Relay => false | Read, _ => true
            | Edit, (Relay | Read) => false | Edit, _ => true
            | Admin, Admin => true | Admin, _ => false
            end.
Proof. destruct a, b; reflexivity. Qed.
Print Assumptions C16_chain.

(** Comparison is a total order, and strict comparison is its negation the other way round. *)
Theorem C16_total_order :
  (forall a, ale a a = true) /\ (forall a b, ale a b = true -> ale b a = true -> a = b) /\
  (forall a b c, ale a b = true -> ale b c = true -> ale a c = true) /\
  (forall a b, ale a b = true \/ ale b a = true) /\ (forall a b, alt a b = negb (ale b a)).
Proof.
  split; [intros []; reflexivity|]. split; [intros [] []; cbn; congruence|]. split; [intros [] [] []; cbn; congruence|].
  split; [intros [] []; cbn; auto|]. intros [] []; reflexivity.
Qed.
Print Assumptions C16_total_order.

(** [max] is the least upper bound and [min] the greatest lower bound. *)
Theorem C16_max_min a b c :
  (ale (amax a b) c = true <-> ale a c = true /\ ale b c = true) /\ (ale c (amin a b) = true <-> ale c a = true /\ ale c b = true).
Proof. destruct a, b, c; cbn; split; split; intuition congruence. Qed.
Print Assumptions C16_max_min.

(** What a level may do, a higher level may do too; relays can neither read nor edit, readers
    cannot edit. *)
Theorem C16_monotone a b : ale a b = true ->
  (is_reader a = true -> is_reader b = true) /\ (is_editor a = true -> is_editor b = true) /\ (is_editor a = true -> is_reader a = true).
Proof. destruct a, b; cbn; auto. Qed.
Print Assumptions C16_monotone.
Theorem C16_levels a :
  (is_reader a = true <-> a = Read \/ a = Edit \/ a = Admin) /\ (is_editor a = true <-> a = Edit \/ a = Admin).
Proof. destruct a; cbn; split; split; intuition congruence. Qed.
Print Assumptions C16_levels.

Lemma best_fold l : forall b x, foldl (fun b d => match b with Some b => if ale (d_can b) (d_can d) then Some d else Some b | None => Some d end) (Some b) l = Some x ->
  (x = b \/ x ∈ l) /\ rank (d_can b) <= rank (d_can x) /\ forall y, y ∈ l -> rank (d_can y) <= rank (d_can x).
Proof.
  induction l as [|d l IH]; intros b x E; cbn in E.
  { injection E as ->. split; [auto|]. split; [lia|]. intros y Hy. inversion Hy. }
  unfold ale in E. destruct (Nat.leb_spec (rank (d_can b)) (rank (d_can d))) as [L|L]; apply IH in E as (A & B & C).
  - split; [destruct A as [->|A]; right; [left|right; exact A]|]. split; [lia|]. intros y Hy. apply elem_of_cons in Hy as [->|Hy]; [lia|auto].
  - split; [destruct A as [->|A]; [auto|right; right; exact A]|]. split; [lia|]. intros y Hy. apply elem_of_cons in Hy as [->|Hy]; [lia|auto].
Qed.
(** A member's capability is one of the delegations they hold, and no other one they hold grants
    more; members without delegations have none. *)
Theorem C16_capability_is_best members i :
  match get_capability members i with
  | Some d => exists l, members !! i = Some l /\ d ∈ l /\ forall d', d' ∈ l -> ale (d_can d') (d_can d) = true
  | None => members !! i = None \/ members !! i = Some []
  end.
Proof.
  unfold get_capability, best_dlg. destruct (members !! i) as [[|b l]|]; cbn [foldl]; auto. destruct (foldl _ _ _) as [d|] eqn:E.
  - exists (b :: l). apply best_fold in E as (A & B & C). split; [reflexivity|]. split; [destruct A as [->|A]; [left|right; exact A]|].
    intros d' Hd. apply Nat.leb_le. apply elem_of_cons in Hd as [->|Hd]; auto.
  - exfalso. revert E. generalize b. induction l as [|x l IH]; intros b'; cbn; [discriminate|]. destruct (ale _ _); apply IH.
Qed.
Print Assumptions C16_capability_is_best.
Example C16_capability_example :
  let d := Dlg 1 100 1 Read None [] 0 in let d' := Dlg 2 100 1 Edit None [] 0 in
  get_capability {[ 1 := [d'; d] ]} 1 = Some d' /\ get_capability {[ 1 := [d; d'] ]} 1 = Some d' /\ get_capability {[ 1 := [d'; d] ]} 2 = None.
Proof. vm_compute. auto. Qed.
