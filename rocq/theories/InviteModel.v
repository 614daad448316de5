(** Contact cards: keyhive.rs 318-338, active.rs 157-169. *)
From stdpp Require Import base list gmap.
From Verif Require Import KeysModel AccessModel GroupModel PrekeyModel HiveModel DocModel TransactModel.

(** keyhive.rs 319-328 [contact_card], active.rs 157-169 [generate_private_prekey]: [old] is the prekey that is
    picked, [sk] and [sk'] are the generated secrets.  The card carries the first of two rotations. *)
Definition contact_card (h : client) (old : share_key) (sk sk' : secret_key) : option (client * keyop) :=
  match make_prekey h (fun a k => active_rotate a old k) sk with
  | None => None
  | Some (h, card) =>
      match make_prekey h (fun a k => active_rotate a (new_key card) k) sk' with
      | None => None
      | Some (h, _) => Some (h, card)
      end
  end.
