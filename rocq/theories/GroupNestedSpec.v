(** Groups in groups: what the theorems about access through them speak about. *)
From stdpp Require Import base list gmap relations.
From Verif Require Import AccessModel GroupModel GroupSpec.

Local Notation env := (gmap ident (gmap ident (list dlg))).

(** Every delegation is held by the group it is about. *)
Definition by_subject (e : env) : Prop := forall g mems i l d, e !! g = Some mems -> mems !! i = Some l -> d ∈ l -> d_subject d = g.
(** [g] may contain groups, but these contain no further groups, except perhaps [g] itself. *)
Definition two_levels (e : env) (g : ident) : Prop :=
  forall m i, m <> g -> direct e g m -> direct e m i -> i = g \/ e !! i = None.
(** All delegations in [g] and in the groups below it grant between [lo] and [hi]. *)
Definition delegates_within (e : env) (g : ident) (lo hi : access) : Prop :=
  forall m mems i l d, m = g \/ belongs e g m -> e !! m = Some mems -> mems !! i = Some l -> d ∈ l -> rank lo <= rank (d_can d) <= rank hi.
