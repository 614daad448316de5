(** Sealing content and the causal-encryption envelope: C30. *)
From Coq Require Import Arith NArith Lia.
From stdpp Require Import base list gmap.
From Verif Require Import SealModel SealSpec SealProofs.

(** ** Sealing *)

(** What was sealed under a key opens to the same content under that key. *)
Theorem C30_open_seal enc dec h k p a b :
  cipher_ok enc dec -> hash24_ok h -> try_seal enc h k p a = Some b ->
  try_open dec k b = Some p /\ length b = 24 + length p + 16.
Proof.
  intros Hc Hh S. apply seal_split in S as (c & -> & E). split.
  - rewrite open_app by apply Hh. now apply (ok_opens _ _ Hc).
  - rewrite app_length, (siv_length h Hh), (ok_length _ _ Hc _ _ _ _ _ E). lia.
Qed.
Print Assumptions C30_open_seal.

(** Whatever opens is an encryption of the result under that very key and the blob's own
    nonce: a modified blob that still opens is a forgery of the cipher. *)
Theorem C30_only_genuine enc dec k b p :
  cipher_ok enc dec -> try_open dec k b = Some p ->
  exists n c, b = n ++ c /\ length n = 24 /\ enc k n SEPARATOR p = Some c.
Proof. intros Hc. exact (open_inv enc dec Hc k b p). Qed.
Print Assumptions C30_only_genuine.

(** Two blobs with the same nonce that open to the same content are the same. *)
Theorem C30_no_malleability enc dec k b b' p :
  cipher_ok enc dec -> try_open dec k b = Some p -> try_open dec k b' = Some p ->
  take 24 b = take 24 b' -> b = b'.
Proof.
  intros Hc O O'. apply (open_inv _ _ Hc) in O as (n & c & -> & L & E).
  apply (open_inv _ _ Hc) in O' as (n' & c' & -> & L' & E'). rewrite !take_app_alt by auto.
  intros ->. congruence.
Qed.
Print Assumptions C30_no_malleability.

(** Opening with another key succeeds only if the cipher gives the same bytes under both keys. *)
Theorem C30_other_key enc dec h k k' p p' a b :
  cipher_ok enc dec -> hash24_ok h -> try_seal enc h k p a = Some b -> try_open dec k' b = Some p' ->
  exists n c, enc k n SEPARATOR p = Some c /\ enc k' n SEPARATOR p' = Some c.
Proof.
  intros Hc Hh S O. apply seal_split in S as (c & -> & E). rewrite open_app in O by apply Hh.
  apply (ok_only _ _ Hc) in O. eauto.
Qed.
Print Assumptions C30_other_key.

(** Inputs too short for a nonce and a tag are refused. *)
Theorem C30_truncated enc dec k b : cipher_ok enc dec -> length b < 24 + 16 -> try_open dec k b = None.
Proof.
  intros Hc L. destruct (try_open dec k b) as [p|] eqn:O; [exfalso|reflexivity].
  apply (open_inv _ _ Hc) in O as (n & c & -> & Ln & E). apply (ok_length _ _ Hc) in E.
  rewrite app_length in L. lia.
Qed.
Print Assumptions C30_truncated.

(** Nonces do not repeat: equal nonces mean equal key, content and context, or a collision of
    the hash (contexts are document ids, all of the same length). *)
Theorem C30_nonces h k k' p p' a a' :
  length a = length a' -> length k = length k' -> siv_new h k p a = siv_new h k' p' a' ->
  (k = k' /\ p = p' /\ a = a') \/ collision h.
Proof.
  intros La Lk E. unfold siv_new in E.
  destruct (decide (SEPARATOR ++ a ++ k ++ p = SEPARATOR ++ a' ++ k' ++ p')) as [Q|Q].
  - left. apply app_inv_head in Q. apply app_inj_1 in Q as [-> Q]; [|exact La].
    apply app_inj_1 in Q as [-> ->]; [|exact Lk]. auto.
  - right. unfold collision. eauto.
Qed.
Print Assumptions C30_nonces.

(** A small cipher that meets [cipher_ok]: the content in clear, followed by a tag. *)
Definition toy_tag (k n a p : bytes) : bytes :=
  let s := foldr N.add 0%N (k ++ n ++ a ++ p) in replicate 16 s.
Definition toy_enc (k n a p : bytes) : option bytes := Some (p ++ toy_tag k n a p).
Definition toy_dec (k n a c : bytes) : option bytes :=
  let p := take (length c - 16) c in
  if decide (c = p ++ toy_tag k n a p) then Some p else None.
Lemma toy_tag_length k n a p : length (toy_tag k n a p) = 16.
Proof. apply replicate_length. Qed.
Lemma toy_ok : cipher_ok toy_enc toy_dec.
Proof.
  split.
  - intros k n a p c [= <-]. unfold toy_dec. rewrite app_length, toy_tag_length, Nat.add_sub, take_app.
    now rewrite decide_True.
  - intros k n a p c. unfold toy_dec, toy_enc. destruct (decide _) as [E|]; [|discriminate]. intros [= <-]. now rewrite <- E.
  - intros k n a p c [= <-]. now rewrite app_length, toy_tag_length.
Qed.
Definition toy_hash (x : bytes) : bytes := replicate 24 (foldr N.add 0%N x).
Lemma toy_hash_ok : hash24_ok toy_hash.
Proof. intros x. apply replicate_length. Qed.
Example C30_seal_example :
  exists b, try_seal toy_enc toy_hash (replicate 32 7%N) [1; 2; 3]%N [9]%N = Some b /\
    try_open toy_dec (replicate 32 7%N) b = Some [1; 2; 3]%N /\
    try_open toy_dec (replicate 32 8%N) b = None /\
    try_open toy_dec (replicate 32 7%N) (1%N :: b) = None /\
    try_open toy_dec (replicate 32 7%N) (take 30 b) = None.
Proof. eexists. vm_compute. repeat split. Qed.

(** The nonce is not checked against the content: a holder of the key can produce a blob that
    opens although its nonce is not the derived one (document.rs 526-534 has this check
    commented out), and nothing ties a blob to the context it was sealed for. *)
Theorem C30_nonce_unchecked enc dec k p n c :
  cipher_ok enc dec -> length n = 24 -> enc k n SEPARATOR p = Some c -> try_open dec k (n ++ c) = Some p.
Proof. intros Hc L E. rewrite open_app by exact L. now apply (ok_opens _ _ Hc). Qed.
Print Assumptions C30_nonce_unchecked.
Theorem C30_derived_nonce_refuted :
  ~ (forall enc dec h k b p, cipher_ok enc dec -> hash24_ok h -> try_open dec k b = Some p ->
       exists a, take 24 b = siv_new h k p a).
Proof.
  intros H. pose (n := replicate 24 5%N ++ []).
  assert (O : try_open toy_dec [1]%N (n ++ [2]%N ++ toy_tag [1]%N n SEPARATOR [2]%N) = Some [2]%N) by (vm_compute; reflexivity).
  destruct (H _ _ (fun _ => replicate 24 0%N) _ _ _ toy_ok ltac:(intros x; apply replicate_length) O) as (a & E).
  vm_compute in E. discriminate.
Qed.
Print Assumptions C30_derived_nonce_refuted.

(** ** The envelope *)

(** An envelope written and read back is the same, also when more bytes follow, as long as
    the 64-bit hashes of its ancestors differ. *)
Theorem C30_envelope h order e junk :
  hash64_ok h -> any_order order -> fits e -> distinct_hashes h e ->
  deserialize (serialize h order e ++ junk) = Some e.
Proof. intros Hh Ho. exact (round_trip h order Hh Ho e junk). Qed.
Print Assumptions C30_envelope.

(** The content itself always survives, and no ancestor is invented. *)
Theorem C30_envelope_content h order e :
  hash64_ok h -> any_order order -> fits e ->
  exists e', deserialize (serialize h order e) = Some e' /\ en_plain e' = en_plain e /\
    en_ancestors e' ⊆ en_ancestors e.
Proof.
  intros Hh Ho F. pose proof (deserialize_serialize h order Hh Ho e [] F) as D. rewrite app_nil_r in D.
  eexists. split; [exact D|]. split; [reflexivity|]. cbn. apply map_subseteq_spec. intros r k Hr.
  apply fold_insert_map in Hr; [|apply ordered_refs_NoDup].
  destruct Hr as [Hr|[_ Hr]]; [|now rewrite lookup_empty in Hr].
  apply elem_of_list_fmap in Hr as ([x [r' k']] & [= -> ->] & Hr).
  apply elem_of_map_to_list. rewrite <- (Ho (en_ancestors e)).
  revert Hr. unfold ordered, bt_collect.
  assert (G : forall (l t : btree), (x, (r', k')) ∈ foldl (fun t kv => bt_insert kv.1 kv.2 t) t l -> (x, (r', k')) ∈ t \/ (x, (r', k')) ∈ l).
  { induction l as [|[y v] l IH]; intros t Hx; [auto|]. cbn in Hx. apply IH in Hx as [Hx|Hx].
    - apply bt_insert_elem in Hx as [Hx|Hx]; [right; rewrite Hx; apply elem_of_list_here|auto].
    - right. now apply elem_of_list_further. }
  intros Hx. apply G in Hx as [Hx|Hx]; [now apply elem_of_nil in Hx|].
  apply elem_of_list_fmap in Hx as ([r2 k2] & E & Hx). injection E as _ <- <-. exact Hx.
Qed.
Print Assumptions C30_envelope_content.

(** A cut-off envelope is refused. *)
Theorem C30_envelope_truncated h order e n :
  hash64_ok h -> any_order order -> fits e -> n < length (serialize h order e) ->
  deserialize (take n (serialize h order e)) = None.
Proof. exact (truncated_lemma h order e n). Qed.
Print Assumptions C30_envelope_truncated.

(** Two ancestors with the same hash: one of them is lost. *)
Theorem C30_envelope_collision h order e r1 r2 :
  hash64_ok h -> any_order order -> fits e ->
  r1 ∈ dom (en_ancestors e) -> r2 ∈ dom (en_ancestors e) -> r1 <> r2 -> h r1 = h r2 ->
  exists e', deserialize (serialize h order e) = Some e' /\
    (r1 ∉ dom (en_ancestors e') \/ r2 ∉ dom (en_ancestors e')).
Proof.
  intros Hh Ho F I1 I2 N E. rewrite <- (app_nil_r (serialize h order e)).
  exact (round_trip_collision h order Hh Ho e [] r1 r2 F I1 I2 N E).
Qed.
Print Assumptions C30_envelope_collision.

(** Exactly the ancestors are read back that no later one in the order of the map collides with. *)
Theorem C30_envelope_last h order e :
  hash64_ok h -> any_order order -> fits e ->
  exists e', deserialize (serialize h order e) = Some e' /\
    forall r k, en_ancestors e' !! r = Some k <->
      exists l1 l2, order (en_ancestors e) = l1 ++ (r, k) :: l2 /\ forall x, x ∈ l2 -> h x.1 <> h r.
Proof. exact (last_wins_lemma h order e). Qed.
Print Assumptions C30_envelope_last.

(** So, for every 64-bit hash, some envelope with two ancestors is not read back. *)
Theorem C30_envelope_refuted h order : hash64_ok h -> any_order order ->
  exists e, fits e /\ size (en_ancestors e) = 2 /\ deserialize (serialize h order e) <> Some e.
Proof.
  intros Hh Ho. destruct (collide h Hh) as (r1 & r2 & L1 & L2 & N & E).
  set (k := replicate 32 0%N : symkey).
  assert (Sz : size (<[r1 := k]> {[r2 := k]} : gmap cref symkey) = 2).
  { rewrite map_size_insert_None, map_size_singleton; [reflexivity|]. apply lookup_singleton_ne. congruence. }
  assert (F : fits (Envelope [] (<[r1 := k]> {[r2 := k]}))).
  { split; cbn [en_ancestors en_plain].
    - intros r k' Hr. assert (Lk : length k = 32) by apply replicate_length.
      apply lookup_insert_Some in Hr as [[<- <-]|[_ Hr]]; [auto|].
      apply lookup_singleton_Some in Hr as [<- <-]. auto.
    - rewrite Sz. split; reflexivity. }
  exists (Envelope [] (<[r1 := k]> {[r2 := k]})). split; [exact F|]. split; [exact Sz|].
  destruct (C30_envelope_collision h order _ r1 r2 Hh Ho F) as (e' & D & M); [| |exact N|exact E|].
  - cbn. rewrite dom_insert. apply elem_of_union_l, elem_of_singleton. reflexivity.
  - cbn. rewrite dom_insert, dom_singleton. apply elem_of_union_r, elem_of_singleton. reflexivity.
  - rewrite D. intros [= ->]. cbn in M. rewrite dom_insert, dom_singleton in M.
    destruct M as [M|M]; apply M; [apply elem_of_union_l|apply elem_of_union_r]; now apply elem_of_singleton.
Qed.
Print Assumptions C30_envelope_refuted.

Definition first8 (r : cref) : N := (un_le (take 8 r) mod 2 ^ 64)%N.
Example C30_envelope_example :
  let e := Envelope [1; 2]%N {[replicate 32 3%N := replicate 32 4%N; replicate 32 5%N := replicate 32 6%N]} in
  deserialize (serialize first8 map_to_list e) = Some e /\ fits e /\ distinct_hashes first8 e.
Proof.
  cbv zeta. split; [|split].
  - rewrite <- (app_nil_r (serialize _ _ _)). apply C30_envelope; [|intros m; reflexivity| |].
    + intros r. apply N.mod_lt. discriminate.
    + split; cbn [en_ancestors en_plain]; [|split; reflexivity].
      intros r k Hr. apply lookup_insert_Some in Hr as [[<- <-]|[_ Hr]]; [split; reflexivity|].
      apply lookup_singleton_Some in Hr as [<- <-]. split; reflexivity.
    + intros r1 r2 H1 H2. cbn [en_ancestors] in H1, H2. rewrite dom_insert, dom_singleton in H1, H2.
      apply elem_of_union in H1, H2. rewrite !elem_of_singleton in H1, H2.
      destruct H1 as [-> | ->], H2 as [-> | ->]; vm_compute; congruence.
  - split; cbn [en_ancestors en_plain]; [|split; reflexivity].
    intros r k Hr. apply lookup_insert_Some in Hr as [[<- <-]|[_ Hr]]; [split; reflexivity|].
    apply lookup_singleton_Some in Hr as [<- <-]. split; reflexivity.
  - intros r1 r2 H1 H2. cbn [en_ancestors] in H1, H2. rewrite dom_insert, dom_singleton in H1, H2.
    apply elem_of_union in H1, H2. rewrite !elem_of_singleton in H1, H2.
    destruct H1 as [-> | ->], H2 as [-> | ->]; vm_compute; congruence.
Qed.
