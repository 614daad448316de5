# Keyhive in Rocq: design of the model and the proofs

Source: inkandswitch/keyhive at the pinned commit in `/repo` (Rust crates `beekem`, `keyhive_core`,
`keyhive_crypto`). Everything is written for Coq 8.16.1 with the standard library and std++.
The code was read as text; it was neither built nor run.

## 1. How the pieces fit

One area of the code = one group of files in `rocq/theories`:

| suffix        | content                                                                                     |
|---------------|---------------------------------------------------------------------------------------------|
| `XModel.v`    | executable Gallina transcription of the Rust functions, each definition cites file and lines |
| `XSpec.v`     | the small, separate specification the theorems are stated against (no use of model helpers)  |
| `XProofs.v`   | lemmas                                                                                       |
| `XProps.v`    | only the property theorems (`Theorem … exact lemma. Qed. Print Assumptions …`) and the examples showing that hypotheses are met |

Modelling conventions.

* `Result`/`Option` stay data. A Rust panic (index out of bounds, `expect`, `unwrap`, `unreachable!`,
  integer underflow) is an explicit `Panic` value, never a silent default.
* `&mut self` functions return the new value. `while` loops are structural recursion or recursion on fuel that
  returns a distinguished out-of-fuel value; theorems exclude that value by proving a sufficient amount of fuel.
* Hash maps and sets whose iteration order is observable are modelled as lists in *arbitrary* order, so theorems
  quantify over the iteration order. Where the order is not observable, std++ `gmap`/`gset` or duplicate-free lists are used.
* Unbounded `N`/`nat` replace `u32`/`usize`, with explicit lemmas or explicit wrap-around where overflow matters.
* Cryptography is symbolic: a digest is injective, a signature verifies iff it was made by the named signer,
  an AEAD ciphertext opens only under the key (and nonce) that made it, Diffie–Hellman keys are unordered pairs of
  key pairs. Where a function takes an oracle (hash, RNG), it is a universally quantified argument of the theorem.
* A property that the code violates is stated in full, a `…_refuted` theorem exhibits a concrete history of the
  model violating it, and a positive theorem says what does hold (suffix `_partial` when it is a part of the property).

## 2. Plan per property

| id  | modelled | proof |
|-----|----------|-------|
| C01 | `treemath.rs` bit arithmetic on `N` | closed form: node (level k, position j) = 2^k(2j+1)-1; each bit function proved equal to its arithmetic counterpart |
| C02 | `direct_path`, `root` with fuel | induction on root level − node level; path = list of ancestors in (k,j) coordinates |
| C03 | `TreeSize::*`, `log2` | `log2` loop = `N.log2`; powers of two |
| C04 | whole of `tree.rs` except tracing, lists for the two `Vec`s, association for the id map | invariant by induction over operation lists |
| C05 | `remove_id`, `blank_*` | characterisation of `blank_path` on (k,j) coordinates |
| C06 | `encrypt_path`, resolutions | resolution lemma: leaves below the resolution of a node = non-blank leaves below the node |
| C07 | `decrypt_tree_secret` with symbolic DH | consistency invariant of every stored version with the current keys below it |
| C08 | Dolev–Yao closure over the published ciphertexts | the set "everything except current keys of uncompromised nodes" is closed under attacker rules |
| C09 | `NodeKey::merge` | permutation/sortedness reasoning |
| C10 | `SecretStore::merge` | non-emptiness by invariant; order invariant refuted by a two-merge history |
| C11 | `CgkaOperationGraph`, `merge_concurrent_operation` | case analysis + invariant |
| C12 | `add_op_and_update_heads` | invariant over all delivery sequences; `Merge` impl treated separately |
| C13 | `topsort_for_heads` | loop invariant, permutation invariance of sorted frontier |
| C14 | `apply_epochs` + the sorting of leaves, networks of replicas | refuted by witness epochs; for networks whose group only grows (no removal, no double addition): by invariants over all histories, every replay succeeds with the members' tree, every operation can be received, every addition works |
| C15 | `derive_application_secret` symbolically | injectivity of the symbolic KDF argument encoding |
| C16 | `Access` | exhaustive case analysis |
| C17 | delegations, `add_delegation`, `proof_lineage`, `add_member` | invariant over all histories |
| C18 | `add_revocation` | refuted by witness, positive theorem for the checked branch |
| C19 | `rebuild` | refuted by witnesses, positive theorem for directly revoked delegations |
| C20 | `rebuild` + heads | determinism in the set of operations, or refutation |
| C21 | `reverse_topsort` | loop invariant |
| C22 | `transitive_members` with arbitrary iteration order | reachability proved; access refuted |
| C23 | `individual_ids` | DFS = reachability, termination measure |
| C24 | `PrekeyState` | set reasoning |
| C25 | `pick_prekey` with the byte-level `clamp` | refuted by witnesses, positive theorem in the safe range |
| C26 | `KeyOp::topsort` | refuted (orphans, duplicates, divergence), positive theorem under fresh rotations |
| C27 | `receive_prekey_op` | case analysis with symbolic signatures |
| C28 | `try_causal_decrypt` | DFS invariant, termination by unseen-store measure |
| C29 | `MemoryCiphertextStore` | refuted by witness, positive map refinement where references are not shared |
| C30 | `SymmetricKey` sealing + envelope serialisation with abstract AEAD and hash | round trip |
| C31 | `ingest_unsorted_static_events` over an abstract monotone `receive` and over the concrete dependency check | confluence by monotonicity, termination by length |
| C32 | BFS over membership operations | closure of BFS; equality of the two queries |
| C33 | `receive_*` | idempotence by case analysis + store invariants |
| C34 | `into_archive`, `try_from_archive`, `ingest_archive` | round trip up to active revocations, bisimulation from then on; refutations for what is lost and for clients that cannot be loaded |
| C35 | `transact_*`, `Fork`/`Merge` instances; heap model for the shared `Active` state; fork, calls and merge of a whole client (`TransactModel`) | parametric over the transaction body; what the listener hears is replayed on the trunk: for own calls with fresh draws a transaction that ends well has the fork's effect; refutations for `Active::fork` and for what a merge loses or panics on |
| C36 | `receive_cgka_op`, `merge_cgka_op` | refuted by witness |
| C37 | `Document::revoke_member` over reachability | set reasoning |
| C38 | `Deque`, `Log` | refinement to a queue |
| C39 | `CaMap` | refinement to a partial map |
| C40 | `Digest::trailing_*` on byte lists | positive for bytes, refuted for bits |
| C41 | `merge_concurrent_operation`, `replay_ops_graph` over networks of replicas | convergence by determinism of the replay |
| C42 | `pcs_key_from_hashes` over the same networks | agreement invariant of derived keys |
| C43 | `new_app_secret_for`, `decryption_key_for` | invariant over all later schedules |
| C44 | `transitive_members`, `add_member`, acceptance of delegations | flat groups and two levels by an invariant of the search (what waits on the stack will overwrite what was noted); bounds for any nesting; deeper nesting and the best chain refuted |
| C45 | `add_member`, `revoke_member` of a group | the result has a history extended by the operations produced |
| C46 | `generate_doc`, `add_member`, `force_pcs_update` with the membership graph and the group key together | reachability before and after a change of one group, invariant over all calls |
| C47 | the same, with the attacker of C08 | composition of C46 with C08 |
| C48 | networks as in C41–C43 in which the maker of an operation has all earlier ones | all replicas have prefixes of one line of operations; replay of a line is the line; decryption is total on reachable trees |
| C49 | the same networks with a ledger of the secrets behind each operation (an inductive relation, every run has one) | each message's key is the root key of the tree at its operation; a root key is sealed only to keys of that moment, and later path changes contain no earlier secrets |
| C50 | the locks every call takes and drops, in order (`LockModel`), and pools of tasks that take turns at every lock | a rank of the locks that every covered call respects; the task that waits for the highest lock can go on; depth of a membership graph without circles; deadlocks by witness schedules |
| C51 | as C14, and the whole key tree as a function of the known operations (`ReadWorld`) | for every node, which updates have the last word on it; one invariant over replays: the versions at a node are those of these updates; hence every single version was sealed to every key below it; induction over all histories of the network; witnesses for the conditions |
| C52 | as C51 | the same invariant also fixes leaves, look-up and places; it is kept by every call of every replica, so no replay ever waits; who is a member is defined on the operations alone (`ReadSpec.member`) |
| C53 | as C51, with symbolic derivation from known secrets and everything sent (`SecrecySpec.derivable`, `TurnSecretSpec.seen`); which secrets come with an operation (`ShutSpec.secrets`) and which were in force | every key in the tree of a moment is sealed only with keys of that tree below it; so secrets outside it derive nothing in it; conversely each leaf's secret derives the root |
| C54 | as C51 and C53; what is sealed after a call, and which secrets are a person's (`EffectSpec`) | C52 for the roster after the call, C53 for those outside it; the refutations by witness runs, also for documents (C37) |
| C55 | as C51 and C53; one call of `new_app_secret_for` at any replica of such a network | sealing either finds one head, made with knowledge of all known operations, or makes an update on top of all heads; so the members at the operation named in the message are those to the knowledge of the replica; then C51 and C53 |
| C56 | all clients together (`TeamSpec`): the calls of `DocModel` and `HiveModel` and deliveries as steps; per document, the operations of its key made so far | every step of a client is a run of steps of the network of the key agreements of each document (refinement); so C51 to C55 apply; the runs of additions and removals a call makes, from C46 and C37, have exactly their effect by C52 |
| C57 | the calls of a client with what its listener is told (`run_call` of `TransactModel`), and what it knows before and after | per call: the new operations of keys are exactly those told, in an order in which each follows its predecessors (invariant over the history graphs of all documents); the membership operations from the trace of C35; induction over the sequence of calls; received events by cases; counterexamples by computation |
| C58 | `FailModel`: revoking a member with what has been done before the error (`revoke_so_far`, `hive_revoke`); the other calls already say what an error leaves behind | adding and revoking: the errors after the first change come from keys that are missing, which up-to-date keys exclude; keys: the working copy only replays known operations; received events by cases; counterexamples by computation |
| C59 | `ingest` of `HiveModel` (passes over what is left, until nothing is taken) with the key agreements of `DocModel`, for a client of a team | an event is taken exactly if all predecessors of its operation are known (by C52); a pass and the loop keep: what is known arrives, what was handed is known or left; in the end nothing left can be taken; operations of a network are well-founded, so everything handed arrives |
| C60 | `ArriveModel`: secrets added to those of the client, then `ingest` of nothing new | what arrives (C59) with what an earlier run left is what arrives with everything, since what was left is what did not arrive for want of secrets or predecessors; induction over arrival both ways |
| C61 | `InviteModel`: contact cards; `InviteSpec`: teams (C56) whose clients also make, rotate and pass on prekeys | invariant over all runs: records are true, every operation that adds somebody uses a prekey of theirs; then C59 |
| C62 | `SettleSpec`: clients that make any calls and receive any events, `made_of_ops` | invariant over all interleavings: each group has a history of exactly the operations in the client's stores; then C17, C19 and C20 |
| C63 | `QueryModel`: the queries about who has access; `QuerySpec`: `member_of`, `has_access` (transitive closure) | `transitive_members` is exact (C44) on the groups of C62; the maps the queries build are shown to be each other's inverse by induction over the stores |
| C64 | `RememberModel`: registering and looking up; `RememberSpec`: `remembers`, `later` (any calls and events) | one lemma per call and event that everything is still there, induction over `later`, then C62 on the later state |
| C65 | the archives of `ArchiveModel` for the clients of C62, the queries of `QueryModel` | C62's invariant implies `intact` (C34); the queries do not look at active revocations |
| C66 | the calls of `DocModel` and `TransactModel` on clients equal up to active revocations (`ResumeSpec`) | every call maps such clients to such clients with the same result; a simulation along the runs of C64 |
| C67 | the calls and events of `DocModel` and `HiveModel`; `SourceSpec` says what a call or event may add | the operations after each function, for every state; induction over runs for the last two |
| C68 | the three `is_missing_dependency` functions of keyhive.rs and the one of beekem (`LackModel`), with the errors of `receive_cgka_op` told apart; `LackSpec` says what an event names and what a client lacks | case analysis over the receiving functions, for every state; witnesses for the three kinds of refusal that are overcome later |
| C69 | `stats` (`TallyModel`); `TallySpec` says what it means that there are n things of a sort | the lists that are counted have no duplicates and the right elements; induction over the queue; C64 and C65 for growth and loading |
| C70 | `try_pcs_key_hash` (`BadgeModel`) | cases of the calls for asking and sealing; C42 for two clients; a computed history in which the reported key is stale |

Parts of properties that cannot be expressed in an executable model: computational (as opposed to symbolic) secrecy,
fairness of the async runtime, and wasm bindings. They are left out of the claims.

## 3. Trusted base

* Coq 8.16.1's kernel, and `vm_compute` inside it, which evaluates the witnesses.
* `Print Assumptions` stands after every theorem of every `…Props.v` file and answers *Closed under the
  global context* for each of them: no theorem rests on an axiom, neither of the standard library nor of
  std++. (The checker lists seven constants `Coq.ssr.ssrunder.Under_rel.*`: they are the fields of a sealed
  module of the ssreflect library that std++ loads; no theorem here depends on them.)
* No axiom, parameter, functor, module type, or switched-off check. Sections with `Context` are used to
  abbreviate arguments; all are closed, so every theorem's statement shows what it quantifies over.
* The faithfulness of the model: every definition of a `…Model.v` file cites the lines it transcribes and
  says what it leaves out. It was compared with the code by reading only.
* The specifications `…Spec.v`: these are what the theorems mean, and are meant to be read.

What the symbolic treatment of cryptography takes for granted (see each `…Model.v` header):

* digests are collision free (a digest is the value itself or a number that identifies it; where it matters it is
  a hypothesis such as `genuine` in the statement);
* a signature is represented by what `try_verify` says about it, or by the key that made it;
* Diffie–Hellman secrets, KDF outputs and AEAD ciphertexts are terms that only their makers' keys open;
  in `SealModel` the AEAD and hash are arbitrary functions and what is assumed of them is in each theorem;
* freshly generated keys are distinct from those in use (freshness is a hypothesis of the theorems, e.g. on the
  sequence of generated keys).

## 4. What is modelled and what is not

| file in `/repo` | model | left out |
|---|---|---|
| `beekem/src/treemath.rs` | `TreeMathModel` | 32-bit overflow (range theorem `from_leaf_count_fits`) |
| `beekem/src/keys.rs`, `secret_store.rs`, `encrypted.rs` (secrets) | `KeysModel` | serialisation, nonces |
| `beekem/src/tree.rs` | `TreeModel`, `TreeOps` (histories) | tracing, `doc_id` (enters only nonces) |
| `beekem/src/operation.rs`, `topsort.rs` | `OpsModel` | serialisation |
| `beekem/src/cgka.rs`, `pcs_key.rs`, `encrypted.rs` (content) | `CgkaModel` | `doc_id`; test-only helpers |
| `keyhive_core/src/cgka.rs` | inside `CgkaModel`/`DocModel` | the thin wrappers that only sign |
| `keyhive_core/src/access.rs` | `AccessModel` | display, wasm names |
| `principal/group.rs`, `group/{delegation,revocation,membership_operation,state}.rs`, `util/topsort.rs` | `GroupModel` | locks, listeners, `Arc` sharing (identifiers are looked up instead) |
| `store/{delegation,revocation}.rs` | the maps `h_dlgs`, `h_revs` of `HiveModel` | ‑ |
| `principal/individual.rs`, `individual/{op,state}.rs`, `active.rs` (prekeys) | `PrekeyModel` | signing keys, listeners |
| `keyhive_crypto/src/{symmetric_key,siv,domain_separator}.rs`, `crypto/envelope.rs` | `SealModel` (on bytes) | the cipher and hash themselves (parameters) |
| `store/ciphertext.rs`, `store/ciphertext/memory.rs`, `document.rs` 537–577 | `CipherModel` | concurrent users of one store |
| `listener/{deque,log}.rs`, `util/content_addressed_map.rs`, `keyhive_crypto/src/digest.rs` (zeros), `transact*.rs` | `UtilModel` | formatting, `SmartString` |
| `keyhive.rs` receiving of events, ingest with pending events | `HiveModel` | task interleaving (except the two-task run of `C31_concurrent_refuted`); what the listener is told is in `TransactModel` |
| `keyhive.rs` queries for other agents (766–1346), `membership_operation.rs` 490–677 | `SyncModel` | counts and statistics |
| `keyhive.rs` 745–827, `keyhive_wasm/src/js/keyhive.rs` 328–342, 687–765 (queries about access) | `QueryModel` | the wrapping of results for JavaScript |
| `keyhive.rs` 398–479, 1349–1424 (registering, looking up) | `RememberModel` | revocations that the delegations under a registered one name |
| `keyhive.rs` archives (1929–2293), `archive.rs`, `*/archive.rs` | `ArchiveModel` | bytes of the archive, content heads of documents |
| `document.rs`, `keyhive.rs` generating, adding, revoking, encrypting, decrypting, updating | `DocModel` | content heads (`after_content`) beyond an opaque number |
| `keyhive.rs` 1910–1926, `active.rs` 291–302 exporting and importing prekey secrets | `ArriveModel` | the encoding as bytes |
| `keyhive.rs` 319–368, `active.rs` 157–169 contact cards | `InviteModel`, `PrekeyModel` | the text form of a card |
| `keyhive.rs` 2508–2589 (fork and merge of a client), `transact.rs` on a client | `TransactModel` | bodies that go on after a failed call |
| `group.rs` 556–726 `revoke_member` with what an error leaves behind | `FailModel` | a panic in the middle of a call |
| the locks of all calls of `keyhive.rs`, `principal/{group,document,active,agent,membered}.rs`, `group/{state,membership_operation}.rs` | `LockModel` (call by call, independent of `HiveModel`) | locks of groups and individuals that nobody else has yet; listeners and signers that take locks; `transact` and `ingest_*` beyond the calls they consist of |

Not modelled: the rest of `keyhive_wasm` (bindings), `debug_events`, `test-utils`, benches; the `Signer` implementations;
`invocation.rs`, `ability.rs` (data only); serialisation other than the envelope and the content-addressed map;
the fairness of the async runtime. Where the code would wait for a lock it already holds, the model says so
with an explicit outcome (`HHang`, `DLoop`, …) instead of going on.

## 5. Findings: claims the code does not meet

Each line is a machine-checked counterexample on the model (theorem name, then what happens).

* `store_versions_sorted_refuted` — Full property: the versions stay in lexicographic order, so replicas report the same node key. Refuted: two concurrent updates of one store, merged in the two orders.
* `graph_merge_heads_refuted` — Merging graphs breaks the property: merging a graph with an extension of itself keeps a head that has a successor.
* `replay_complete_refuted` — A second operation without predecessors, which is accepted from the network, is dropped from the replay as soon as any operation has a predecessor.
* `replay_deterministic_refuted` — When no operation has a predecessor the order is that of the hash set.
* `C14_added_member_kept_refuted` — A member was added and never removed, yet has no leaf: another member with the same history derives the group key, the added member's replica panics.
* `C14_one_leaf_each_refuted` — Two members add the same third one: two leaves carry one member's id.
* `C14_replay_succeeds_refuted` — Two members remove the same third one, or each other: every later update fails.
* `C14_replay_terminates_refuted` — A removal concurrent with an addition and an update by the added member: the replay walks up from a leaf outside the tree and never meets the root, whatever the fuel.
* `C15_epoch_field_refuted` — The update operation a ciphertext names is not authenticated: a replica that decrypts an altered copy then makes secrets naming an operation that does not exist.
* `C41_several_heads_refuted` — With several heads they may differ: versions of a node pile up in order of arrival.
* `C17_nested_groups_refuted` — The full claim fails when the caller belongs to a group inside a group inside the group: the access through them is overestimated, and someone whose every path has at most read access adds an admin.
* `C18_outsider_refuted` — The full claim fails both ways. Anyone can revoke by naming the revoked delegation itself as the authority: here a stranger empties the group.
* `C18_admin_refuted` — And an admin cannot remove a member whom they did not add: [revoke_member] finds no authority, and a revocation that names their own admin delegation is rejected by every replica.
* `C19_dependents_refuted` — Without that condition they stay: bob was added and removed by the group's key; carol, whom bob had added, remains a member although nothing else makes carol one.
* `C20_revoked_twice_refuted` — Both conditions are needed. When one delegation has two revocations, the members depend on the iteration order of a hash map.
* `C20_same_grant_refuted` — When two members of a team make the same grant, the members depend on the order of arrival.
* `C21_cycle_refuted` — Otherwise not: alice adds a team, and a member of the team revokes alice on the team's authority. The revocation must come both before and after the team's delegation; the order comes out empty and the group loses all its members.
* `C22_access_refuted` — In general their access is not that of the best path: it can exceed every path,
* `C22_order_refuted` — And it depends on the order of iteration.
* `C25_shrinks_refuted` — Out of order the number of prekeys does go down: the second rotation is known before the first.
* `C25_empty_refuted` — An individual that rotates in a circle has no prekey, although every operation was accepted, and picking one then panics whatever the hash is.
* `C25_pick_refuted` — With sixteen prekeys, which an owner reaches by expanding nine times, picking panics for half of all documents: the samples that are accepted are those whose low four bits are 0, which picks the first key, or 1, which panics.
* `C26_contact_card_refuted` — A client that knows somebody only from their contact card, which is a rotation (keyhive.rs 319-328), exports nothing about them.
* `C26_circle_refuted` — For an individual that rotates in a circle, exporting never ends.
* `C26_twice_refuted` — If two operations introduce the same key, what follows it is exported twice.
* `C27_unknown_refuted` — For somebody not yet known a forged operation becomes a prekey: received as an event it is reported as an error but kept, received as a contact card it is accepted; and so it is for a group known only by its identifier.
* `C27_public_refuted` — ... but not contact cards: its only prekey can be rotated away.
* `C30_derived_nonce_refuted` — The nonce is not checked against the content: a holder of the key can produce a blob that opens although its nonce is not the derived one (document.rs 526-534 has this check commented out), and nothing ties a blob to the context it was sealed for.
* `C30_envelope_refuted` — So, for every 64-bit hash, some envelope with two ancestors is not read back.
* `C29_remove_hides_refuted` — Removing one ciphertext can make another with the same reference and operation unfindable by its operation.
* `C29_remove_loses_refuted` — Removing two of three loses the third also by reference, and the second removal claims that there was nothing to remove.
* `C29_wrong_update_refuted` — Looking up an operation can return a ciphertext that was made under another one.
* `C28_error_refuted` — A wrong key in one envelope makes the whole call fail although everything was decrypted with the right key from another; and whether it does depends on the iteration order of a hash map. Here 2 carries a wrong key for 1, 3 the right one.
* `C28_next_done_refuted` — [next] can name content that has just been decrypted, when the entry point was not taken from the store.
* `C28_document_missing_refuted` — A document's missing direct ancestors are not reported at all.
* `C28_endless_refuted` — With a store whose lookups can fail, decryption may never end: 1 is an ancestor of itself, and looking up its other ancestor fails.
* `C38_names_refuted` — The names promise the opposite: a queue that got 1 and then 2 gives 1 as the latest and 2 as the earliest.
* `C39_extend_refuted` — [extend] takes any pairs: a value can be put under a digest that is not its own, and then hides the right one.
* `C39_load_refuted` — Loading does not check digests either.
* `C39_order_refuted` — The order on maps depends on the order in which the hash maps list their keys: one map can be smaller than itself.
* `C40_zero_bits_refuted` — It is wrong in general: a digest that ends with a one bit has seven trailing zeros.
* `C40_overflow_refuted` — On the digest of zeros it overflows: a panic with overflow checks, and 0 instead of 256 without.
* `C35_fork_effect_refuted` — So a successful transaction does not have the fork's effect: removals come back (as documented) and changes to existing entries are dropped without an error.
* `C35_active_refuted` — The active agent shares its cells with its forks: a failed transaction on it is not undone. Here the body stores a prekey pair and then fails.
* `C31_team_order_refuted` — The authority of a team member: 2 belongs to the team 100, which shares the document 200. 2 adds 3 to the document and 1 removes 2 from the team. Clients that receive these two in different orders disagree for good.
* `C31_prekey_first_refuted` — Prekeys of a group: when they arrive before its first delegation the group is not created.
* `C31_revocation_hangs_refuted` — After that a revocation for the group makes the client hang.
* `C31_panic_refuted` — And with the prekey event repeated in between a delegation can make the client panic.
* `C31_circle_hangs_refuted` — Two groups that contain each other: an operation signed by a member of the inner one hangs.
* `C31_kind_order_refuted` — The first delegation that arrives decides whether the group is a document.
* `C31_concurrent_refuted` — Two tasks that ingest at the same time: both read the pending events, then one finishes, then the other. The event that the first one had to put aside is lost: what it waits for arrives, and it is neither taken nor pending.
* `C33_prekey_refuted` — But once the individual has been dropped, the same prekey operation brings it back.
* `C32_removed_unknown_refuted` — 2 was removed from the group and 51 was added after that. 51 is not sent the prekeys of 2 and so can take neither the delegation to 2 nor the revocation nor the delegation that makes 51 a member.
* `C32_removed_seen_refuted` — The document 200 is shared with 51 and with the group 100, from which 3 was removed. 51 is not sent the revocation. If 51 knows 3 then 51 sees 3 as a member of the document.
* `C32_document_member_refuted` — The document 300 is a member of the group 100. 51 is a member of the group, but is not sent the document, so that its delegation stays pending.
* `C32_batch_refuted` — 2 had access to the document through the authority of the group 100 and was removed. The query for 2 gives the delegation that makes the group known; the query for all agents does not, and without it 2 cannot take the revocation.
* `C34_revoked_refuted` — The list of revoked members of a group is empty after coming back.
* `C34_promoted_refuted` — The document 200 is shared with 100, which is known as an individual. Then it turns out to be a group: the individual is dropped, and no group takes its place. What was stored cannot be loaded.
* `C34_cycle_refuted` — 1 makes the team 300 an admin of the group 100, and the member 7 of the team removes 1. No order puts the delegation to the team both before the removal (which rests on it) and after it (it rests on what is removed): both are left out of what is stored, and so is everything they rest on.
* `C34_takeover_refuted` — Pending events: 12 rests on 11, which has not come yet. When it comes, the client that was brought back takes both; a new client that took the archive over never had 12.
* `C34_foreign_refuted` — Nobody looks at whose archive it is: taking over that of somebody else mixes their prekeys into one's own.
* `C46_relay_refuted` — A team of relays: a new member of the team gets a place although it may not read.
* `C46_nested_refuted` — Document 9 is a member of document 10: who joins 9 belongs to 10 and gets no place there.
* `C37_cascade_refuted` — Those who lose access because the grant that theirs rests on was revoked keep their place.
* `C37_nested_refuted` — Document 9 is a member of document 10: who is revoked from 9 keeps the place in 10.
* `C37_late_refuted` — An operation that arrived just before the revocation and is not yet applied brings back who was revoked: the next encryption is for them, too.
* `C36_stranger_refuted` — A stranger who has seen the operations of the group key adds themselves; the member takes the operation, and what the member encrypts then the stranger can read.
* `C47_creator_refuted` — The document itself has a place for ever, and its creator has the secret of it: a creator who was removed still reads what is encrypted later.
* `C35_received_refuted` — A body that receives a grant from somebody else: the fork has the new member, and nothing of it reaches the client, because the listener is not told of delegations that are received.
* `C35_rejected_refuted` — A body that receives an invalid revocation: receiving it is an error that changes nothing, and the body ends well, but the listener was told: merging panics.
* `C35_unregistered_refuted` — A body that gives an agent access that the client has no record of (the API takes agents, not identifiers): the calls succeed on the fork, and merging panics.
* `C35_race_refuted` — While the body adds a member, the client learns that its own access has ended: merging panics. Without that event the transaction ends well.
* `C35_secret_refuted` — A body that updates the key of a document: the new secret stays on the fork, and the client cannot encrypt any more.
* `C35_public_refuted` — A body that adds Public to a document: when the addition is received, the client takes it for its own invitation and goes on as Public. Once Public is removed again, it can neither read nor encrypt; without a transaction it can.
* `C34_unregistered_refuted` — Property C34 again: after an agent that the client has no record of was given access, what is stored cannot be loaded.
* `C50_new_document_and_prekeys_refuted` — Making a document takes the source of randomness and then the active agent; new prekeys, and a new group, take them the other way around.
* `C50_adding_own_team_refuted` — Adding a group that the client is in to a document takes the document and then the active agent; listing the documents that the client can reach, and receiving an invitation to the document, take them the other way around.
* `C50_three_calls_refuted` — Three calls: sealing takes the source of randomness and then the document, adding the own team takes the document and then the active agent, and new prekeys take the active agent and then the source of randomness.
* `C50_relevant_documents_refuted` — Adding to a group with a document given that the group is in takes the group and then the document; a walk through the members of the document takes them the other way around.
* `C50_counts_refuted` — The counts take the individuals and then the groups; receiving a delegation for a group that is not known takes the groups and then the individuals.
* `C50_promotion_refuted` — Turning an individual into a group of which a revocation is stored takes the revocations and then the delegations; looking an operation up takes them the other way around.
* `C50_circular_groups_refuted` — Two groups that are members of each other: listing the members of both at the same time.
* `C50_revocation_of_stranger_refuted` — A revocation for a group that is not known wants a lock that it has itself: the call never returns, also if it is the only one.
* `C51_racing_addition_refuted` — Additions that do not take turns: refuted. 1 adds 5 and updates, while 3 updates; 5 gathers all. Then 3 and 4, who have all their secrets, cannot read the key of 5's update: the addition made the tree taller while 3's update was under way.
* `C51_two_devices_refuted` — Two devices of one member: refuted. Both update; then an update of member 1, who has all their secrets, panics.
* `C54_removal_ignored_refuted` — 3 adds 5 while 1 updates. 1 receives the addition, so 5 is a member to the knowledge of 1. 1 removes 5: the call returns without error, but there is no operation. What 1 seals then opens with the key 5 was added with. (The code asks whether 5 is in the tree before it brings the tree up to date.)
* `C54_added_twice_refuted` — 1 and 3 both add 5. 1, who knows of both, removes 5, and the operation is made and known to everybody who seals from then on. What 1 seals still opens with one of the keys 5 was added with, and 5 cannot be removed any more.
* `C54_addition_ignored_refuted` — 3 removes 4 while 1 updates. 1 receives the removal, so 4 is no member to the knowledge of 1. 1 adds 4 again: the call returns without error, but there is no operation. With 1's next update the tree is brought up to date, and 4 is not in it.
* `C37_added_twice_refuted` — 3 was added to document 9 by clients 1 and 2 at the same time. Client 1, who knows, removes 3; nobody behind that place belongs to the document any more. What client 1 encrypts then opens with the secret of the prekey that 3 was added with and the operations of the document's group key.
* `C57_received_refuted` — A delegation from somebody else that adds a member to a known document: the client has it and a new member, and the listener is not told.
* `C57_prekey_refuted` — A prekey operation of somebody else is received as an event: the client has it, and the listener is not told. (The same operation in a contact card is told.)
* `C57_rejected_refuted` — A revocation that is refused is told all the same.
* `C57_failed_refuted` — Client 1 has a team 7 in document 9, and learns that the team also belongs to document 10, whose key it does not have yet. Adding somebody to the team gives them the key of document 9, and then fails at document 10: the key of document 9 has changed, and the listener is never told.
* `C58_leave_refuted` — Leaving while keeping those whom one had granted access. Client 1 makes document 9 for itself and 2, adds 3, and leaves. First it revokes its own access, then it finds that it has no authority left to grant 3 access again. The call fails, and client 1 is out; the key has not been changed. Asking again succeeds and does nothing, so that client 1 keeps its place in the key.
* `C58_two_grants_refuted` — Removing somebody who has two grants. 2 and 3: client 1 knows that 2 granted 3 access, and grants 3 more. It removes 3: its own grant is revoked, then there is no authority to revoke the one by 2. The call fails, one of the two grants is gone.
* `C58_received_revocation_refuted` — A revocation that is refused, for a group of which only prekeys are known besides the delegation that is to be revoked: the prekeys are forgotten.
* `C58_received_prekey_refuted` — A prekey that is refused because somebody else signed it, when nothing is known of its alleged issuer: the issuer is on record afterwards, with that very prekey.
* `C58_add_refuted` — Adding to a team that has two documents, where the key of one of them has not arrived: the call fails, and the new member is in the team and in the key of the other document.
* `C63_revoked_gone_refuted` — Finding: [revokedMembersForDoc] names individuals that have access. Only the members of the document itself are left out of the list of those whose delegation was revoked (group.rs 253-260, js/keyhive.rs 711-730), not those who still come in through a team: individual 3 is reported as revoked with the access Edit and as a member with the access Read.
* `C64_promotion_refuted` — Finding: a client that has heard of a group's key as of an individual (a prekey operation signed by it, say) and then receives the first delegation of the group forgets both: the individual is dropped and the group made of it is not filed (keyhive.rs 1637-1646).
* `C64_register_group_refuted` — Finding: [register_group] looks for the subject of the delegation and files the group under its issuer (keyhive.rs 434-463). With a delegation that is not the first of its group it says that it registered the group, which is unknown afterwards; there is a group instead under the identifier of the individual that signed; and the next call says so again.
* `C64_register_individual_refuted` — Finding: [register_individual] does not look for groups and documents (keyhive.rs 419-431): it says that it registered somebody who cannot be looked up, because the group of that identifier comes first.
* `C65_revoked_refuted` — Finding: what [revokedMembersForDoc] answers is lost by storing and loading: individual 3 is listed before and not after.
* `C68_document_refuted` — A new operation of the key of a document whose first delegation has not arrived: the error says that nothing is missing, and the same operation is taken once the delegation is there.
* `C68_secret_refuted` — The addition of the owner of a client to the key of a document, before the client has the secret of the prekey (it is a second device): the error says that nothing is missing, and the same operation is taken once the secret was imported.
* `C68_chain_refuted` — A delegation by a member of a group that is a member, before the delegation that made them a member has arrived: the group refuses the chain, the error says that nothing is missing, and the same delegation is taken later.
* `C69_active_prekeys_refuted` — The number reported as the prekeys of the active agent is that of the operations that they published: rotating a prekey, which leaves as many prekeys as before, raises it.
* `C70_next_refuted` — The digest that is reported is that of the key at the root of the tree even when an addition that the client knows is not yet worked into the tree. Client 1 changes the key of a document and then takes the addition of individual 3 that client 2 made at the same time: it still reports the key that individual 3 does not have, and seals the next content under another one.

Seen while reading, not modelled:

* Adding a member to a group whose lock is already held by the caller (a group that contains the document it
  is a member of) waits for itself.

## 6. Wrong programs

`seeded/LOG.jsonl` has one line per edit of the model: the definition, the edit, the claim it breaks, the theorems that
no longer prove, and those that were tightened because of it.
