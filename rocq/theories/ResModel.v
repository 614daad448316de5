(** Outcomes of the modelled functions.

    [Ok] and [Err] are the two sides of a Rust [Result].  [Panic] is a Rust panic
    (index out of bounds, [expect], [unwrap], [unreachable!], integer underflow).
    [OutOfFuel] means that a loop of the model did not finish within its fuel (or that
    a model of the random generator ran out of values); it corresponds to no outcome
    of the code, and theorems exclude it. *)
From stdpp Require Import base.

(** beekem/src/error.rs 8-83: the constructors of [CgkaError] that the modelled
    functions return (payload strings are dropped). *)
Inductive cgka_error :=
| EDecryption | EEncryptedSecretNotFound | EIdentifierNotFound | ENoRootKey
| ENotInitialized | EOperationNotFound | EOutOfOrderOperation | EShareKeyNotFound
| ESecretKeyNotFound | ERemoveLastMember | EUnexpectedKeyConflict
| EUnexpectedInitialOperation | EUnexpectedInviteOperation | EUnknownPcsKey.

Inductive res (A : Type) :=
| Ok (a : A)
| Err (e : cgka_error)
| Panic
| OutOfFuel.
Arguments Ok {A} a. Arguments Err {A} e. Arguments Panic {A}. Arguments OutOfFuel {A}.

Definition rbind {A B} (x : res A) (f : A -> res B) : res B :=
  match x with
  | Ok a => f a
  | Err e => Err e
  | Panic => Panic
  | OutOfFuel => OutOfFuel
  end.
Notation "'let!' x ':=' e 'in' k" := (rbind e (fun x => k))
  (at level 200, x pattern, e at level 100, k at level 200, right associativity).

(** [Option::expect] / [Vec] indexing. *)
Definition expect {A} (o : option A) : res A :=
  match o with Some a => Ok a | None => Panic end.
(** [Option::ok_or]. *)
Definition ok_or {A} (o : option A) (e : cgka_error) : res A :=
  match o with Some a => Ok a | None => Err e end.
