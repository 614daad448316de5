(** Secrets of prekeys that are moved from one device to another. *)
From stdpp Require Import base list gmap.
From Verif Require Import ResModel KeysModel TreeModel OpsModel CgkaModel AccessModel GroupModel PrekeyModel HiveModel DocModel.

(** keyhive.rs 1910-1912 and active.rs 291-294 [export_prekey_secrets], without the encoding as bytes. *)
Definition export_secrets (h : client) : sk_map := cs_pairs (h_cg h).
(** active.rs 297-302 [import_prekey_secrets]: an imported secret takes the place of one for the same key.  Bytes that
    cannot be decoded, which change nothing, are not modelled. *)
Definition more_secrets (h : client) (l : sk_map) : client := put_cg h (Cgs (l ∪ cs_pairs (h_cg h)) (cs_docs (h_cg h))).
(** keyhive.rs 1918-1926 [import_prekey_secrets]: what was left is tried again. *)
Definition import_secrets (order : gset nat -> list nat) (doc_content : nat -> ident -> bool) (horder : gset digest -> list digest) (rorder : gset (member_id * nat) -> list (member_id * nat))
    (shuffle : list (sevent dop) -> list (sevent dop)) (h : client) (l : sk_map) : option (client * list (sevent dop)) :=
  ingest order doc_content do_doc do_ok (doc_receive horder rorder) shuffle (more_secrets h l) [].
