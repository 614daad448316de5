{"id": "C01", "title": "Tree navigation arithmetic is consistent", "statement": "For every inner node of a left-balanced binary tree numbered as in the key tree, its left and right child are distinct, both name it as parent, and each is the other's sibling; the level of a child is one less than its parent's; a node's subtree is a contiguous index interval split between its two children.", "quantifier": "every node index (unbounded), every level", "why_tests_cant": "index arithmetic is bit twiddling over all 32-bit indices; tests only cover a few sizes", "anchors": ["beekem/src/treemath.rs: left, right, parent, sibling, level"]}
{"id": "C02", "title": "Every direct path reaches the root", "statement": "For every tree size the library creates and every node in it, the direct path terminates, contains exactly the proper ancestors of the node in bottom-up order, ends at the root, never leaves the tree, and has length equal to the root level minus the node level.", "quantifier": "every tree size produced by from_leaf_count/inc, every node in that tree", "why_tests_cant": "termination and completeness of the walk must hold for every size", "anchors": ["beekem/src/treemath.rs: direct_path, root, TreeSize::new, from_leaf_count, inc"]}
{"id": "C03", "title": "Tree size always accommodates the leaves", "statement": "A tree created for n leaves is a complete tree with more than n and at most 2n leaf slots, so that leaf index n itself is in bounds; a tree requested for a number of nodes is the smallest complete tree with at least that many; leaf and inner node counts add up to the size; doubling keeps the shape complete, keeps every old node in the tree and makes the old root the left child of the new one.", "quantifier": "every leaf count n >= 1, any number of doublings", "why_tests_cant": "rounding off by one at powers of two is only visible at specific sizes", "anchors": ["beekem/src/treemath.rs: TreeSize::new, from_leaf_count, leaf_count, inner_node_count, inc, log2, root"]}
{"id": "C04", "title": "Key tree members and leaves stay in step under local operations", "statement": "After any sequence of successful add, remove and path-update operations on the key tree, a member is contained iff it was added and not removed since; every contained member occupies exactly one leaf, no two members share a leaf, member_count is the number of contained members, and no operation ever fails with an index-out-of-bounds error.", "quantifier": "every sequence of operations, any number of members and any tree growth", "why_tests_cant": "ghost leaves and index drift appear only after particular interleavings of adds, removals and growth", "anchors": ["beekem/src/tree.rs: BeeKem::new, push_leaf, remove_id, encrypt_path, maybe_grow_tree, grow_tree_to_size, id_to_leaf_idx"]}
{"id": "C05", "title": "Removal blanks the removed member's whole path", "statement": "After a member is removed, their leaf and every ancestor of it hold no key, every other leaf keeps its key, and no other inner node gains or changes a key (only ancestors of trailing blank leaves, whose slots are given up, are blanked too); the number of members drops by exactly one; the last member can not be removed.", "quantifier": "every key tree state reachable by local operations, every member", "why_tests_cant": "must hold at each of the unboundedly many tree shapes", "anchors": ["beekem/src/tree.rs: remove_id, blank_leaf_and_path, blank_path"]}
{"id": "C06", "title": "A path update encrypts to exactly the current members", "statement": "Every path update gives each proper ancestor of the updating leaf a fresh key, and the new secret of each ancestor is encrypted once for each key of the resolution of the sibling subtree; the leaves below the nodes encrypted to are precisely the non-blank leaves outside the updater's own path, so no blank (removed) leaf is ever encrypted to and no present member is left out.", "quantifier": "every tree state reachable by local operations, every updating member", "why_tests_cant": "requires an argument about resolutions over arbitrary blank patterns", "anchors": ["beekem/src/tree.rs: encrypt_path, encrypt_key_for_parent, encrypt_new_secret_store_for_parent, append_resolution, should_skip_for_resolution"]}
{"id": "C07", "title": "All members derive the same root secret after an update", "statement": "After any member performs a path update, every member present in the tree who knows only the secret of their own leaf can decrypt their path up to the root, and all of them obtain the same root secret as the updater.", "quantifier": "every reachable key tree state, every updater, every other member", "why_tests_cant": "agreement is a statement about all members of all trees, with blanks and conflicts along the path", "anchors": ["beekem/src/tree.rs: decrypt_tree_secret, encrypt_path, maybe_decrypt_parent_key", "beekem/src/secret_store.rs: decrypt_secret", "beekem/src/keys.rs: try_decrypt_encryption"]}
{"id": "C08", "title": "A removed member cannot obtain later root secrets", "statement": "Once a member has been removed and another member has subsequently updated, nobody can derive the new root secret from the removed member's leaf secret, all secrets previously derivable and every published ciphertext.", "quantifier": "every history of local operations, every removed member, every adversary closure under symbolic decryption", "why_tests_cant": "secrecy ranges over all attacker derivations", "anchors": ["beekem/src/tree.rs: remove_id, encrypt_path", "beekem/src/cgka.rs: remove, update"]}
{"id": "C09", "title": "Merging concurrent node keys is order-independent and keeps exactly the surviving keys", "statement": "Merging a key into a node keeps every existing key that was not replaced plus every new key and nothing else, yields a single key iff exactly one key survives, and merging the same collection of concurrent keys in any order gives the same result.", "quantifier": "every node key, every set of removed keys, every permutation of concurrent updates", "why_tests_cant": "order independence quantifies over all permutations of all multisets of keys", "anchors": ["beekem/src/keys.rs: NodeKey::merge, keys, contains_key, len"]}
{"id": "C10", "title": "Secret store versions stay in lexicographic order", "statement": "A node's stored versions always contain at least one version and their public keys are in lexicographic order, so replicas that merged the same concurrent updates in different orders report the same node key.", "quantifier": "every sequence of merges with every set of removed keys", "why_tests_cant": "the documented invariant must survive every merge order", "anchors": ["beekem/src/secret_store.rs: SecretStore::merge, remove_keys_from, node_key, new, has_conflict"]}
{"id": "C11", "title": "Group key operations are accepted only in causal order", "statement": "A remote group-key operation whose predecessors are not all known is rejected as out of order and leaves the whole state unchanged; an accepted operation's transitive predecessors are all known; re-delivering a known operation changes nothing.", "quantifier": "every operation graph reachable by local and remote operations, every incoming operation", "why_tests_cant": "delivery schedules are unbounded", "anchors": ["beekem/src/cgka.rs: merge_concurrent_operation", "beekem/src/operation.rs: contains_predecessors, add_op, add_op_and_update_heads"]}
{"id": "C12", "title": "Heads are exactly the operations without successors", "statement": "After any sequence of local and remote operations the reported heads are exactly the known operations that no known operation names as predecessor, and the graph is acyclic and causally closed.", "quantifier": "every delivery sequence of operations", "why_tests_cant": "depends on unbounded histories and forks", "anchors": ["beekem/src/operation.rs: CgkaOperationGraph::add_local_op, add_op, add_op_and_update_heads, heads_contained_in, has_single_head"]}
{"id": "C13", "title": "Replay order is causal, complete and independent of arrival order", "statement": "Replaying the group-key history visits every operation in the ancestry of the given heads exactly once, each after all its predecessors, grouped in epochs whose order is a function of the set of operations only, so two replicas holding the same operations replay them identically.", "quantifier": "every causally closed operation graph, every set of heads, every order in which it was received", "why_tests_cant": "a statement about every DAG and every insertion order", "anchors": ["beekem/src/operation.rs: topsort_graph, topsort_for_heads", "beekem/src/topsort.rs: TopologicalSort"]}
{"id": "C14", "title": "Concurrent group-key membership changes all take effect", "statement": "When membership operations are made concurrently and replayed as one epoch, every member whose addition is not concurrent with their own removal ends up with a usable leaf, each member has one leaf, and replay never fails.", "quantifier": "every epoch of concurrent adds and removes", "why_tests_cant": "combinatorial interplay of which adds and removes meet in an epoch", "anchors": ["beekem/src/tree.rs: sort_leaves_and_blank_paths_for_concurrent_membership_changes, push_leaf, remove_id", "beekem/src/cgka.rs: apply_epochs, apply_operation"]}
{"id": "C15", "title": "Application secrets are reproducible and content-bound", "statement": "The key derived to encrypt a content reference is the key any holder of the same epoch secret derives to decrypt it; keys for different content references, predecessor sets or epochs differ (up to key-derivation collisions); a ciphertext naming another epoch is never decrypted with the wrong key.", "quantifier": "every epoch secret, content reference, predecessor list, nonce", "why_tests_cant": "round trip over all inputs; collisions are symbolic", "anchors": ["beekem/src/pcs_key.rs: derive_application_secret", "beekem/src/cgka.rs: new_app_secret_for, decryption_key_for", "beekem/src/encrypted.rs"]}
{"id": "C16", "title": "Access levels form a total order with monotone capabilities", "statement": "Relay < Read < Edit < Admin is a total order; anyone allowed to edit may read, and granting a higher level never takes away an ability.", "quantifier": "all pairs and triples of access levels", "why_tests_cant": "finite but load-bearing for every other authorization statement; exhaustive by proof", "anchors": ["keyhive_core/src/access.rs: Access, is_reader, is_editor"]}
{"id": "C17", "title": "Nobody can delegate more than they hold", "statement": "A delegation accepted into a group never grants more access than any delegation in its proof chain, and its proof chain ends in a delegation issued by the group's own root identity; every delegation in the chain was issued by the delegate of the one before, or by somebody who belongs to that delegate.", "quantifier": "every sequence of received delegations and revocations, adversarially ordered and adversarially crafted (up to signature forgery)", "why_tests_cant": "an adversary chooses the operations", "anchors": ["keyhive_core/src/principal/group/state.rs: add_delegation", "keyhive_core/src/principal/group.rs: add_member_with_manual_content, receive_delegation", "keyhive_core/src/principal/group/delegation.rs: proof_lineage"]}
{"id": "C18", "title": "Only someone with authority can revoke", "statement": "A revocation accepted into a group was issued by the group itself, by an ancestor of the revoked delegation or by a member with sufficient access; revocations by anyone else are rejected and leave the group unchanged.", "quantifier": "every group state, every incoming revocation including adversarial ones", "why_tests_cant": "an adversary chooses the operation", "anchors": ["keyhive_core/src/principal/group/state.rs: add_revocation", "keyhive_core/src/principal/group.rs: receive_revocation"]}
{"id": "C19", "title": "Revoking a delegation removes it and everything that depends on it", "statement": "After a delegation is revoked, neither it nor any delegation whose every proof chain passes through it confers membership.", "quantifier": "every delegation/revocation graph, every revoked delegation", "why_tests_cant": "cascades have unbounded depth and interact with alternative proofs", "anchors": ["keyhive_core/src/principal/group.rs: rebuild, revoke_member"]}
{"id": "C20", "title": "Group membership is a function of the operations received", "statement": "Two replicas that accepted the same set of delegations and revocations agree on the members of the group and their access, regardless of the order of arrival.", "quantifier": "every set of membership operations and all arrival orders allowed by causality", "why_tests_cant": "all permutations of all DAGs", "anchors": ["keyhive_core/src/principal/group.rs: rebuild", "keyhive_core/src/principal/group/membership_operation.rs: reverse_topsort", "keyhive_core/src/principal/group/state.rs: add_delegation, add_revocation"]}
{"id": "C21", "title": "Membership replay order is complete and causal", "statement": "The linearisation of the membership operations reachable from the heads contains each exactly once, and puts every operation after (in reverse order: before) everything it causally depends on; a revocation comes before the delegations that rest on what it revokes. Complete whenever these constraints together are satisfiable, which they are if every revocation is made by the group or on the authority of the revoked delegation or one it rests on.", "quantifier": "every acyclic graph of delegations and revocations", "why_tests_cant": "a statement over every DAG", "anchors": ["keyhive_core/src/principal/group/membership_operation.rs: reverse_topsort, ancestors, after_auth"]}
{"id": "C22", "title": "Transitive membership is reachability", "statement": "An agent other than the group itself is reported as a transitive member of a group iff there is a chain of memberships from the group to it, whatever the iteration order of the membership maps, and the computation terminates.", "quantifier": "every membership graph incl. cyclic ones, every iteration order", "why_tests_cant": "hash-map iteration order and cycles", "anchors": ["keyhive_core/src/principal/group.rs: transitive_members", "keyhive_core/src/principal/agent.rs: individual_ids", "keyhive_core/src/principal/group/state.rs: is_transitive_member_of"]}
{"id": "C23", "title": "The individuals behind an agent are found exactly once", "statement": "The set of individual identities behind an agent is exactly the set of individuals reachable through nested groups and documents, and computing it terminates even when groups contain each other.", "quantifier": "every membership graph including cyclic ones", "why_tests_cant": "cycles of every shape", "anchors": ["keyhive_core/src/principal/agent.rs: individual_ids", "keyhive_core/src/principal/group.rs: individual_ids"]}
{"id": "C24", "title": "The prekey set is a conflict-free replicated set", "statement": "The prekeys of an individual depend only on the set of prekey operations received, not on order or multiplicity; merging two replicas' operations is commutative, associative and idempotent; the set is exactly the added or rotated-in keys that no operation rotates out.", "quantifier": "every set of prekey operations, every order, every merge tree", "why_tests_cant": "CRDT laws quantify over all histories", "anchors": ["keyhive_core/src/principal/individual/state.rs: PrekeyState::build, insert_op, merge, all_keys", "keyhive_core/src/principal/individual/op.rs: KeyOp"]}
{"id": "C25", "title": "An individual always has at least one prekey", "statement": "An individual's prekey set never becomes empty, so picking a prekey for sharing always succeeds and returns one of the individual's current prekeys.", "quantifier": "every sequence of accepted prekey operations, every seed", "why_tests_cant": "ranges over adversarial operation sets and pseudo-random seeds", "anchors": ["keyhive_core/src/principal/individual.rs: pick_prekey, clamp, pseudorandom_in_range, receive_prekey_op, rebuild", "keyhive_core/src/principal/individual/state.rs"]}
{"id": "C26", "title": "Prekey operations are exported causally and completely", "statement": "The list of prekey operations sent for an individual contains every operation exactly once, with each rotation after the operation that introduced the key it rotates, and producing it terminates.", "quantifier": "every set of prekey operations accepted for an individual", "why_tests_cant": "graph-shaped histories incl. concurrent rotations and cycles", "anchors": ["keyhive_core/src/principal/individual/op.rs: KeyOp::topsort"]}
{"id": "C27", "title": "Only an individual can change their own prekeys", "statement": "A prekey operation changes an individual's state only if it is signed by that individual with a valid signature; otherwise it is rejected and nothing changes.", "quantifier": "every individual state and every incoming operation", "why_tests_cant": "adversarial inputs", "anchors": ["keyhive_core/src/principal/individual.rs: receive_prekey_op, new", "keyhive_core/src/principal/individual/state.rs: insert_op"]}
{"id": "C28", "title": "Causal decryption reveals exactly the reachable history", "statement": "Decrypting from a set of entry points yields every stored ciphertext reachable through the ancestor keys in the envelopes, each exactly once, reports exactly the referenced-but-missing ancestors as next, and terminates on every store.", "quantifier": "every ciphertext store and every ancestor graph (incl. cyclic or adversarial envelopes)", "why_tests_cant": "graph-shaped, adversarial content", "anchors": ["keyhive_core/src/store/ciphertext.rs: try_causal_decrypt", "keyhive_core/src/principal/document.rs: try_causal_decrypt_content"]}
{"id": "C29", "title": "The ciphertext store behaves like a map", "statement": "After inserting a ciphertext it is found by its content reference and by its update operation; removing it makes it not found and leaves every other ciphertext findable; lookups never return ciphertexts that do not match the query.", "quantifier": "every sequence of insert and remove operations", "why_tests_cant": "index drift needs particular sequences of colliding inserts and removes", "anchors": ["keyhive_core/src/store/ciphertext/memory.rs: insert, remove, remove_all, get_by_content_ref, get_by_pcs_update"]}
{"id": "C30", "title": "Encrypting then decrypting content returns it", "statement": "Content sealed under a key opens to the same content under the same key, and opening with a different key, nonce or a modified ciphertext fails (up to forging the AEAD); truncated inputs are rejected rather than panicking; ancestors in an envelope survive serialisation.", "quantifier": "every plaintext, key, nonce, ancestor map", "why_tests_cant": "round trip over all inputs", "anchors": ["keyhive_crypto/src/symmetric_key.rs: try_seal, try_open, try_encrypt, try_decrypt", "keyhive_core/src/crypto/envelope.rs", "keyhive_core/src/principal/document.rs: try_encrypt_content_keyed, try_decrypt_content_keyed"]}
{"id": "C31", "title": "Ingesting events in any order reaches the same state", "statement": "Ingesting a batch of events in any order, in any number of batches and with duplicates, terminates and ends with the same accepted operations; an event is left pending only if it can not be applied in the final state, and no acceptable event is lost.", "quantifier": "every finite set of events, every permutation and partition into batches", "why_tests_cant": "all permutations and partitions", "anchors": ["keyhive_core/src/keyhive.rs: ingest_unsorted_static_events, receive_static_event"]}
{"id": "C32", "title": "Events offered to a peer are complete and ingestible", "statement": "The membership operations sent to an agent contain, with every operation, everything it causally depends on, so that a peer that starts from nothing and receives just these can apply all of them; and the all-agents batch query returns for each agent the same set as the per-agent query.", "quantifier": "every state, every agent", "why_tests_cant": "closure over arbitrary graphs", "anchors": ["keyhive_core/src/keyhive.rs: membership_ops_for_agent, membership_ops_for_all_agents", "keyhive_core/src/principal/group/membership_operation.rs: collect_membership_heads, push_membership_edges, bfs_membership_ops"]}
{"id": "C33", "title": "Receiving the same operation twice changes nothing", "statement": "Delivering an already accepted delegation, revocation, prekey or group-key operation again leaves the observable state unchanged.", "quantifier": "every state and every previously accepted operation", "why_tests_cant": "ranges over all histories", "anchors": ["keyhive_core/src/keyhive.rs: receive_delegation, receive_revocation, receive_prekey_op, receive_cgka_op", "keyhive_core/src/util/content_addressed_map.rs"]}
{"id": "C34", "title": "Saving and loading preserves the state", "statement": "Restoring from an archive gives a state with the same individuals, groups, documents, members, access levels, revocations and pending events as the one saved; restoring never fails for a state reachable through the API.", "quantifier": "every reachable state", "why_tests_cant": "round trip over all reachable states", "anchors": ["keyhive_core/src/keyhive.rs: into_archive, try_from_archive, ingest_archive", "keyhive_core/src/principal/group/state.rs: into_archive, dummy_from_archive"]}
{"id": "C35", "title": "A failed transaction has no effect; a successful one has exactly the fork's effect", "statement": "If the function run inside a transaction returns an error the original state is unchanged; if it succeeds the state is the merge of the original with the fork, and events emitted inside are published once and in order.", "quantifier": "every transaction body, every state, nested transactions", "why_tests_cant": "the body is arbitrary code", "anchors": ["keyhive_core/src/transact.rs: transact_blocking, transact_async", "keyhive_core/src/transact/merge.rs", "keyhive_core/src/principal/active.rs: fork, merge_async", "keyhive_core/src/listener/log.rs"]}
{"id": "C36", "title": "Only members can change a document's group key", "statement": "A group-key operation signed by an identity that is not a member of the document is rejected and leaves the document's group key unchanged.", "quantifier": "every document state, every incoming signed operation", "why_tests_cant": "adversarial inputs", "anchors": ["keyhive_core/src/keyhive.rs: receive_cgka_op", "keyhive_core/src/principal/document.rs: merge_cgka_op, merge_cgka_invite_op"]}
{"id": "C37", "title": "Revoking a member from a document removes exactly the individuals that lost access", "statement": "After revoking an agent from a document, an individual keeps their place in the document's group key iff they can still reach the document through some other membership.", "quantifier": "every document, every membership graph, every revoked agent", "why_tests_cant": "overlapping group memberships of every shape", "anchors": ["keyhive_core/src/principal/document.rs: revoke_member, add_member"]}
{"id": "C38", "title": "Queues and logs deliver events in the order they happened", "statement": "An event queue returns events oldest-first or newest-first as its operations promise, loses none and duplicates none; a log keeps the events in the order they were logged.", "quantifier": "every sequence of push and pop operations", "why_tests_cant": "all sequences", "anchors": ["keyhive_core/src/listener/deque.rs: push, pop_latest, pop_earliest", "keyhive_core/src/listener/log.rs"]}
{"id": "C39", "title": "Content-addressed maps never confuse or lose entries", "statement": "A content-addressed map returns for a digest exactly the value with that digest, insertion is idempotent, merging keeps every entry of both sides, and removal affects only the removed digest.", "quantifier": "every sequence of insert, remove, merge, extend", "why_tests_cant": "all sequences", "anchors": ["keyhive_core/src/util/content_addressed_map.rs: CaMap", "beekem/src/content_addressed_map.rs"]}
{"id": "C40", "title": "Digest zero counts measure trailing zeros", "statement": "The number of trailing zero bits or bytes reported for a digest equals the number of consecutive zero bits or bytes at its end, for every digest, and is computed without overflow.", "quantifier": "all 2^256 digests", "why_tests_cant": "the all-zero and boundary digests are never sampled", "anchors": ["keyhive_crypto/src/digest.rs: trailing_zeros, trailing_zero_bytes"]}
{"id": "C41", "title": "Replicas converge", "statement": "Honest replicas of a group that have received the same operations, in whatever order and with whatever duplicates, and whose history has a single head, hold the same key tree.", "quantifier": "every number of replicas, every schedule of adds, removes, updates, encryptions, decryptions and deliveries, every iteration order of the hash maps", "why_tests_cant": "the schedules and map orders are unbounded", "anchors": ["beekem/src/cgka.rs: merge_concurrent_operation, replay_ops_graph", "beekem/src/operation.rs: topsort_graph"]}
{"id": "C42", "title": "Epoch key agreement", "statement": "Any two honest replicas that derive the key of the same update operation derive the same key, at whatever time and with whatever further operations each has received.", "quantifier": "every reachable network state, every pair of replicas, every operation", "why_tests_cant": "the two derivations may rebuild different trees from different histories", "anchors": ["beekem/src/cgka.rs: pcs_key_from_hashes, derive_pcs_key_for_op, pcs_key_from_tree_root"]}
{"id": "C43", "title": "Content stays readable", "statement": "Whenever a replica computes a decryption key for a ciphertext an honest replica sent, that key opens it to the original content; the author can read it at any later time; derived epoch keys are never lost.", "quantifier": "every reachable network state and every later schedule", "why_tests_cant": "unbounded futures", "anchors": ["beekem/src/cgka.rs: new_app_secret_for, decryption_key_for", "beekem/src/pcs_key.rs: derive_application_secret"]}
{"id": "C44", "title": "Access through groups is that of the best chain", "statement": "The access reported for a transitive member is the best over chains of memberships of the least access along the chain, whatever the iteration order of the membership maps; so nobody can add a member with more access than they have along some chain.", "quantifier": "every membership graph incl. cyclic ones, every iteration order", "why_tests_cant": "hash-map iteration order, depth and cycles", "anchors": ["keyhive_core/src/principal/group.rs: transitive_members, add_member_with_manual_content"]}
{"id": "C45", "title": "Local membership changes are ordinary operations", "statement": "Whatever adding or removing a member through the API produces is signed by the caller, is justified by delegations in force, covers exactly the delegations the removed member holds, and leaves the group in a state that any replica reaches by receiving the same operations.", "quantifier": "every group history, every caller, every member", "why_tests_cant": "the state before the call is arbitrary", "anchors": ["keyhive_core/src/principal/group.rs: add_member_with_manual_content, revoke_member"]}
{"id": "C46", "title": "The group key of a document has a place for exactly its members", "statement": "The group key of a document has a place for the document itself and for exactly the individuals that belong to it, directly or through groups: a new document gives places to those behind its parents, adding a reader (to the document or to a group that belongs to it) gives places to those behind the new member, and after an update everybody with a place can read the new secret.", "quantifier": "every sequence of membership changes, key updates, encryptions and decryptions in a client; every membership graph", "why_tests_cant": "unbounded sequences of calls on membership graphs of every shape", "anchors": ["keyhive_core/src/keyhive.rs: generate_doc, add_member, revoke_member, force_pcs_update", "keyhive_core/src/principal/document.rs: generate, add_member, add_cgka_members_from_prekeys, pcs_update"]}
{"id": "C47", "title": "Who does not belong to a document cannot derive its key", "statement": "No coalition of individuals that do not belong to a document, former members included, can derive the current secret of the document's group key from the secrets they ever contributed and everything that was published.", "quantifier": "every history of a client's documents, every coalition, every derivation", "why_tests_cant": "adversaries and histories of any size", "anchors": ["keyhive_core/src/keyhive.rs: revoke_member, try_encrypt_content", "keyhive_core/src/principal/document.rs: revoke_member, generate"]}
{"id": "C48", "title": "Members of a group that takes turns can always catch up, read and write", "statement": "If operations on the group key are made in turn (whoever makes one has all earlier ones), then whatever the delivery order, duplication and delay: every replica accepts an operation whose predecessors it knows and can catch up at any time; a member whose replica got the secrets of the keys they were added with can then read everything sealed while they were a member; and a member who has the own key's secret can seal content.", "quantifier": "every network whose operations are made in turn, every lag and delivery order, every member, every ciphertext ever sent", "why_tests_cant": "unbounded histories; liveness after any delay", "anchors": ["beekem/src/cgka.rs: merge_concurrent_operation, new_app_secret_for, decryption_key_for, pcs_key_from_hashes", "beekem/src/tree.rs: decrypt_tree_secret, encrypt_path"]}
{"id": "C49", "title": "What is sealed in a group that takes turns is closed to everybody else, before and after", "statement": "If operations on the group key are made in turn and secrets are generated freshly, a sealed message can be opened with the leaf secret of anyone who was a member at the operation it was sealed under, and stays closed for ever to (a) any coalition of people who were not members at that operation, with all the secrets they brought before and after, even if they are added later, and (b) anybody with secrets - of members too - that were replaced before or made after that operation; all of them may use everything that was ever sent.", "quantifier": "every network whose operations are made in turn, every ciphertext, every coalition, every derivation", "why_tests_cant": "adversaries and histories of any size; past and future of a moment", "anchors": ["beekem/src/cgka.rs: new_app_secret_for, update, remove, add", "beekem/src/tree.rs: encrypt_path, remove_id, push_leaf", "beekem/src/encrypted.rs: try_decrypt"]}
{"id": "C50", "title": "Concurrent calls on one client all return", "statement": "Calls made at the same time on one client - making groups and documents, prekeys, adding and removing members, sealing and opening, all queries, receiving events, archiving, counting - never wait for one another for ever: whatever the schedule, and even if some of them fail or are cancelled on the way, the others return.", "quantifier": "every number of tasks, every sequence of calls in each, every schedule at the granularity of the locks, every membership graph, every point at which tasks are cancelled", "why_tests_cant": "deadlocks need particular interleavings; the tests run one task", "anchors": ["keyhive_core/src/keyhive.rs: generate_group, generate_doc, add_member, revoke_member, reachable_docs, receive_delegation, receive_revocation, receive_cgka_op, stats, into_archive", "keyhive_core/src/principal/active.rs: expand_prekeys, rotate_prekey", "keyhive_core/src/principal/document.rs: generate, add_member", "keyhive_core/src/principal/group.rs: transitive_members, add_member"]}
{"id": "C51", "title": "Concurrent key updates lock no member out", "statement": "In a group in which additions and removals are made in turn (whoever makes one knows of all operations so far, and later ones are made with knowledge of it), each member acts from one device and the keys of updates are fresh, members may update their keys and seal content at any time, without knowledge of each other, and receive each other's operations in any order: a member that keeps the secrets of the own keys can update at any time however many concurrent operations it knows, can seal content at any time, reads everything sealed under an operation to whose maker it was a member (also if it was removed since, or removed and added again), and, when one update has gathered all that the member knows, has that update's key as the group key. If the public member is in the group, the same reading works for whoever holds the public secrets.", "quantifier": "every network of replicas with such operations, every interleaving and delivery order, every number of members and of concurrent updates", "why_tests_cant": "conflicts in the tree depend on which updates race and on the shape of the tree; unbounded members and histories", "anchors": ["beekem/src/cgka.rs: update, merge_concurrent_operation, new_app_secret_for, decryption_key_for, pcs_key_from_hashes, replay_ops_graph", "beekem/src/tree.rs: apply_path, encrypt_path, decrypt_tree_secret, append_resolution", "beekem/src/secret_store.rs: merge"]}
{"id": "C52", "title": "Changes of members made in turn take effect everywhere", "statement": "In a group as in C51, at all times and at every replica, the key tree holds exactly the members according to the operations the replica knows (added and not removed since), each at one place that is also the one looked up, with a key given by one of the member's operations; replicas that know the same operations have the same members in the same places and the same keys at every node; no replay is ever left waiting or fails; every operation can be received once those it was made on top of are known, and has exactly its effect on who is a member; adding somebody who is no member and removing a member who is not the last work at any time and have exactly that effect, and adding a member or removing somebody who is none changes nothing.", "quantifier": "every network of replicas with such operations, every interleaving and delivery order, every sequence of additions, removals and re-additions, with any number of concurrent updates around them", "why_tests_cant": "which leaves are free, which nodes are blank and which updates are in conflict depends on the whole history and on the order of delivery", "anchors": ["beekem/src/cgka.rs: add, remove, merge_concurrent_operation, apply_operation, replay_ops_graph", "beekem/src/tree.rs: push_leaf, remove_id, apply_path, collect_tombstones", "beekem/src/operation.rs: topsort_graph"]}
{"id": "C53", "title": "Messages stay closed to everybody without a key of the moment, even with concurrent updates", "statement": "In a group as in C51 with freshly generated secrets: a sealed message, and the group key of any update, stays closed for ever to anybody who has only secrets that came with operations which, in the history of the operation it was sealed under, were followed by a later operation about the same member, or are not in that history (they were made later, or by somebody who did not know); in particular to any coalition of people who were no members then, with all secrets they brought before and after. All of them may use everything that was ever sent, and may have the keys of other updates made at the same time. The secret of a single member's key that was in force then is enough to open it.", "quantifier": "every network as in C51, every interleaving of concurrent updates, every ciphertext, every update, every set of secrets, every derivation", "why_tests_cant": "adversaries and histories of any size; the keys at a node depend on which updates race", "anchors": ["beekem/src/cgka.rs: new_app_secret_for, update, remove, add", "beekem/src/tree.rs: encrypt_path, apply_path, remove_id, push_leaf, append_resolution", "beekem/src/encrypted.rs: try_decrypt", "beekem/src/keys.rs: NodeKey, ConflictKeys"]}
{"id": "C54", "title": "Adding and removing somebody takes effect", "statement": "When a call that removes a member from the group key returns without error, whatever is sealed from then on with knowledge of what the caller's replica knows, and before the person is added again, stays closed to that person with all secrets that came with operations about them. When a call that adds somebody who is no member returns without error, they are a member from then on.", "quantifier": "every reachable state of every replica, every member, every later history, every derivation", "why_tests_cant": "depends on what was received and is not yet applied, and on concurrent additions", "anchors": ["beekem/src/cgka.rs: add, remove, replay_ops_graph, should_replay", "beekem/src/tree.rs: push_leaf, remove_id, contains_id"]}
{"id": "C55", "title": "A message is sealed for those who are members to the knowledge of its author", "statement": "In a group as in C51, when a replica seals content: the operation it is sealed under was made with knowledge of exactly the operations that replica knows; everybody who is a member according to these operations, and keeps the secrets of the own keys, reads the content as soon as they received that operation, whatever else happens before; and with freshly generated secrets it stays closed for ever to any coalition of people who are no members according to these operations, with all secrets they brought before and will bring, and everything that is ever sent.", "quantifier": "every network as in C51, every replica however far behind and whatever concurrent operations it knows, every content, every later history, every member, every coalition", "why_tests_cant": "whose updates a replica has merged, whether it has a key and which operation the key belongs to depends on the whole history", "anchors": ["beekem/src/cgka.rs: new_app_secret_for, has_pcs_key, update, decryption_key_for, pcs_key_from_hashes", "beekem/src/encrypted.rs: try_decrypt", "keyhive_core/src/principal/document.rs: try_encrypt_content"]}
{"id": "C56", "title": "Documents shared by many clients: who is added reads, who is revoked does not", "statement": "Clients that share documents each make their own calls (making groups and documents, adding and revoking members, updating keys, sealing, opening, prekeys) and receive each other's events in any order, any number of times or never. If the changes to a document's key members take turns, each key member acts from one device and keys are fresh (as in C51), then for every client, whatever it received: a place in the document's key at that client have exactly those added and not removed since according to the key operations it knows; a successful call that adds an agent with read access gives places to exactly the individuals behind the agent, and a successful call that revokes an agent takes the places of exactly the individuals behind the agent that do not belong any more; content that a client seals is read by everybody with a place there as soon as they know the operation it was sealed under, if they keep their own keys' secrets; it stays closed for ever to any coalition of people without a place there; and what anybody seals with knowledge of a revocation stays closed to the revoked until they are added again.", "quantifier": "every team of clients, every interleaving of calls and deliveries, every document, every member reached through nested groups, every content, every coalition", "why_tests_cant": "what a client has received, and what others do at the same time, decides about keys, members and content of all of them", "anchors": ["keyhive_core/src/keyhive.rs: generate_doc, add_member, revoke_member, force_pcs_update, try_encrypt_content, try_decrypt_content, receive_static_event, receive_cgka_op", "keyhive_core/src/principal/document.rs: generate, add_member, revoke_member, try_encrypt_content_keyed, try_decrypt_content_keyed, merge_cgka_op", "beekem/src/cgka.rs: add, remove, update, merge_concurrent_operation, new_app_secret_for, decryption_key_for"]}
{"id": "C57", "title": "The listener hears of every change", "statement": "Whatever a client comes to know, its event listener is told. For every sequence of calls that succeed (making groups and documents, adding and revoking members, updating keys, sealing, prekeys, contact cards): every delegation, revocation, operation of a document's key and prekey operation that the client has afterwards and did not have before was told; everything told is in the client; and whatever an event refers to was known before or told earlier, so that another client can receive the events in the order they were told. The same for every event received from elsewhere, and for calls that fail.", "quantifier": "every client, every sequence of calls with fresh randomness, every received event, every outcome", "why_tests_cant": "one forgotten path of one call loses an event for ever, and no other client will learn of it", "anchors": ["keyhive_core/src/keyhive.rs: add_member, revoke_member, try_encrypt_content, force_pcs_update, receive_contact_card, receive_delegation, receive_revocation, receive_cgka_op", "keyhive_core/src/principal/group.rs: new, generate, receive_delegation, receive_revocation, add_member, revoke_member", "keyhive_core/src/principal/document.rs: generate", "keyhive_core/src/principal/active.rs: rotate_prekey, expand_prekeys", "keyhive_core/src/listener/membership.rs, prekey.rs, cgka.rs"]}
{"id": "C58", "title": "A call that fails changes nothing", "statement": "When a call on a client returns an error, the client is as it was: adding or revoking a member that fails leaves members, keys and stores unchanged; updating a key, sealing or opening content that fails leaves everything unchanged but for cached work on the key of that document, whose known operations are the same; an event that is refused leaves the client unchanged.", "quantifier": "every client state that its own calls or received events produce, every call and every event, every error", "why_tests_cant": "each call changes several parts of the state one after the other, and can fail between any two of them depending on the history of members and keys", "anchors": ["keyhive_core/src/keyhive.rs: add_member, revoke_member, force_pcs_update, try_encrypt_content, try_decrypt_content, receive_prekey_op, receive_delegation, receive_revocation, receive_cgka_op", "keyhive_core/src/principal/group.rs: add_member, revoke_member", "keyhive_core/src/principal/document.rs: add_member, revoke_member"]}
{"id": "C59", "title": "Operations of a document's key may arrive in any order", "statement": "When a client ingests operations of document keys that others made, in any order, split into any batches and with any repetitions, it knows in the end exactly the operations it knew before and those of the handed ones (or ones kept from earlier) whose predecessors are all there in the same sense; the other handed ones are kept for later, and nothing else is. So two clients in the same state that get the same events in different orders and batches end with the same operations, the same events kept and the same people in each key; a client that was handed everything made for a document knows all of it, keeps nothing of it for later, and has exactly the people in the key that all operations together leave in it; and content sealed under an operation that arrives is read by those who have a place in the key at its author.", "quantifier": "every reachable team of clients, every client and what it knows, every set of genuine key operations, every order in which the client goes through them, every split into batches", "why_tests_cant": "the number of orders and batches grows without bound, and the client repeats passes over what was left until nothing more can be taken", "anchors": ["keyhive_core/src/keyhive.rs: ingest_unsorted_static_events, receive_static_event, receive_cgka_op", "keyhive_core/src/principal/document.rs: merge_cgka_op, merge_cgka_invite_op", "beekem/src/cgka.rs: merge_concurrent_operation"]}
{"id": "C60", "title": "Secrets imported from another device serve as if they had been there", "statement": "When prekey secrets exported by one client are imported by another, what was waiting for them is taken: afterwards the client knows exactly the operations of document keys it knew before and those kept for later whose predecessors are all there and, where an operation adds the client itself, whose prekey secret it now has; the rest is kept. Handing over any batches of events first and importing afterwards ends with the same operations, events kept and people in keys as having the secrets before. A second device of a person that was handed everything of a document and imports the secrets of the first knows everything and keeps nothing of that document for later.", "quantifier": "every reachable team of clients, every client and what it knows and keeps, every set of secrets, every order and every split into batches", "why_tests_cant": "depends on what was left over by all earlier attempts, in every order", "anchors": ["keyhive_core/src/keyhive.rs: export_prekey_secrets, import_prekey_secrets, ingest_unsorted_static_events, receive_cgka_op", "keyhive_core/src/principal/active.rs: export_prekey_secrets, import_prekey_secrets"]}
{"id": "C61", "title": "Whoever is invited can open the invitation", "statement": "Whatever the clients of a team did before: a prekey that one client has on record for another is one whose secret the other has, also after the other rotated it away; so whoever is added to the key of a document has the secret of the prekey that was used, and a client that is handed all operations of the document's key, in any order and split, comes to know them all and everybody with a place in the key. A contact card introduces its maker: a client that did not know them has exactly the prekey of the card on record for them afterwards, it may be used for an invitation, and the maker has its secret.", "quantifier": "every team of clients whose records were true at the start, every sequence of prekey expansions and rotations, contact cards, deliveries and calls, every choice of prekeys, every order of delivery", "why_tests_cant": "between the making of a prekey and its use there is any number of rotations, deliveries and calls at other clients", "anchors": ["keyhive_core/src/keyhive.rs: contact_card, receive_contact_card, expand_prekeys, rotate_prekey, add_member, ingest_unsorted_static_events", "keyhive_core/src/principal/active.rs: generate_contact_card, generate_private_prekey, rotate_prekey, expand_prekeys", "keyhive_core/src/principal/individual.rs: pick_prekey, receive_prekey_op"]}
{"id": "C62", "title": "A group is what the operations make it, on a client that both acts and receives", "statement": "Whatever calls a client makes and whatever it receives, in any interleaving and with any result: every group and document it has is exactly what the membership operations of it that the client has make it; no operation is forgotten and none comes from elsewhere. So whoever is a member is so by delegations the client has, which give no more access than any they rest on and start at the group's own key; a delegation the client has is in force unless it or one it rests on is revoked by a revocation the client has; a revocation by the group's key, or whose authority no other revocation hits, takes effect; and two clients with the same operations of a group have the same members with the same delegations, however each came by them.", "quantifier": "every interleaving of making groups and documents, adding, revoking, key updates, encryption, decryption, prekeys, contact cards, imported secrets and received events, with every result; any two clients, with any iteration orders of hash maps", "why_tests_cant": "the interleavings of own calls, failed calls and deliveries are unbounded, and agreement is about two different ones", "anchors": ["keyhive_core/src/keyhive.rs: generate_group, generate_doc, add_member, revoke_member, receive_delegation, receive_revocation, receive_static_event", "keyhive_core/src/principal/group.rs: add_member, revoke_member, receive_delegation, receive_revocation, rebuild"]}
{"id": "C63", "title": "Everything a client answers about who has access agrees", "statement": "Whatever calls a client made and whatever it received: asked for the members of a group or document, it names exactly those who hold a delegation in force in it or in a group that has access to it. Asked for the documents, or the groups and documents, an agent can reach, it names exactly those among whose members the agent is, with the same access; the access of an agent to a document is that same access, the best access is the greater of it and that of the public. The capabilities listed for a document are those of exactly the individuals that have access. The revoked members are exactly the individuals whom a revocation in force, which the client has, took a delegation from and who have none in the document itself, with the greatest access taken. A delegation the client has and that is not revoked lets its delegate reach every document its group has access to. Two clients with the same operations list the same people.", "quantifier": "every interleaving of calls and received events, every group and document, every agent, every nesting of groups, any iteration order of hash maps", "why_tests_cant": "the answers are computed by different searches over nested groups of any depth and shape, whose members come from any history", "anchors": ["keyhive_core/src/keyhive.rs: reachable_docs, reachable_members, docs_reachable_by_agent, membered_reachable_by_agent", "keyhive_core/src/principal/group.rs: transitive_members, revoked_members", "keyhive_wasm/src/js/keyhive.rs: doc_member_capabilities, revoked_members_for_doc, access_for_doc, best_access_for_doc"]}
{"id": "C64", "title": "Nothing that was learnt is forgotten", "statement": "Whatever calls a client makes and whatever it receives, and whether calls succeed or fail: every membership operation, group, document, person, prekey secret and document key it has stays, whoever can be looked up can be looked up ever after, and looking up an operation by its digest returns exactly the operations the client has. So what was revoked stays revoked whatever arrives later, as long as the authority of the revocation is not itself revoked; and whoever was given access keeps it until it is revoked. Introducing a person, group or document by hand changes nothing that is known, and says truthfully whether it was known already.", "quantifier": "every client state reachable by calls and received events, every sequence of further calls and events with every result", "why_tests_cant": "any number of calls, failures and deliveries may lie between learning something and asking for it", "anchors": ["keyhive_core/src/keyhive.rs: register_peer, register_individual, register_group, get_membership_operation, get_peer, get_agent, receive_static_event, add_member, revoke_member, generate_group, generate_doc", "keyhive_core/src/principal/group/state.rs: new"]}
{"id": "C65", "title": "A client that was saved and loaded answers as before", "statement": "Whatever calls a client made and whatever it received, in any interleaving: it can be saved and loaded, provided that it knows everybody it has a delegation to and its operations can be ordered. The loaded client has the same operations, prekey secrets, document keys and events waiting, knows the same people, and gives the same answers about the members of groups and documents, the documents an agent can reach, the access of an agent to a document, the individuals listed for a document, and about revoked members.", "quantifier": "every interleaving of calls and received events with every result, every group, document and agent", "why_tests_cant": "what is saved is put together again from operations in an order of its own, whatever the history was", "anchors": ["keyhive_core/src/keyhive.rs: into_archive, try_from_archive, reachable_docs, reachable_members, docs_reachable_by_agent, membered_reachable_by_agent, get_membership_operation", "keyhive_core/src/principal/group.rs: dummy_from_archive, revoked_members", "keyhive_wasm/src/js/keyhive.rs: doc_member_capabilities, revoked_members_for_doc, access_for_doc, best_access_for_doc"]}
{"id": "C66", "title": "A client that was saved and loaded goes on as if it had not been", "statement": "Every call on the loaded client returns what it would have returned on the client that was saved, and leaves the two the same again up to the list of revoked members: making groups and documents, adding and revoking members, changing keys, encrypting, decrypting, making prekeys and taking contact cards. Whatever interleaving of calls and received events one of the two can go through, the other can too, and they end up the same.", "quantifier": "every client in every state that calls and received events lead to, every sequence of calls and events afterwards, every argument", "why_tests_cant": "the state that is lost by saving could be read by any later call", "anchors": ["keyhive_core/src/keyhive.rs: into_archive, try_from_archive, add_member, revoke_member, generate_group, generate_doc, try_encrypt_content, try_decrypt_content, force_pcs_update", "keyhive_core/src/principal/group.rs: dummy_from_archive, add_member_with_manual_content, revoke_member"]}
{"id": "C67", "title": "A client has no membership operations but those it was asked to make and those it received", "statement": "In every state and whatever the result: adding a member makes at most one delegation, by the active agent, to the given member with the given access. Revoking a member makes only revocations by the active agent of delegations to that member and, if asked to retain what the member granted, delegations that repeat existing ones to others with the same access. Making a group or document makes only delegations to its first members. A received event adds at most the operation it says, and only if its signature verifies. No other call adds, removes or changes membership operations, groups or documents. If calls name only agents that the client knows, it knows everybody it has a delegation to, and can be saved and loaded.", "quantifier": "every state of a client, every call with every argument and every result, every received event", "why_tests_cant": "an operation that slips in would have to be looked for after every call in every state", "anchors": ["keyhive_core/src/keyhive.rs: add_member, revoke_member, generate_group, generate_doc, receive_static_event, static_delegation_to_delegation", "keyhive_core/src/principal/group.rs: add_member_with_manual_content, revoke_member"]}
{"id": "C68", "title": "What a client says about an event it refuses tells whether it is worth keeping", "statement": "A refused event comes with an answer to whether something it depends on is missing. For a genuine new delegation the answer is yes exactly when the proof, the delegate or a revocation that it names is not known; for a genuine new revocation exactly when what it revokes or its proof is not known; for a new operation of the key of a known document it is yes when a predecessor is not known. For an event with a bad signature it is no, and no client takes such an event. When the answer is no, nothing that arrives later makes the same event acceptable.", "quantifier": "every state of a client and every event, of each of the four kinds", "why_tests_cant": "the answer has to be right for every combination of what has arrived and what has not", "anchors": ["keyhive_core/src/keyhive.rs: ReceiveStaticEventError::is_missing_dependency, ReceiveStaticDelegationError::is_missing_dependency, ReceiveCgkaOpError::is_missing_dependency, receive_static_event", "beekem/src/error.rs: CgkaError::is_missing_dependency"]}
{"id": "C69", "title": "The numbers a client reports are the numbers of what it has", "statement": "stats reports how many people, groups, documents, delegations and revocations the client has, how many prekeys were published and rotated, how many operations the keys of its documents have, and how many events of each kind wait, in all and from the active agent. The numbers are right in every state; those of the waiting events add up to the length of the queue; those of people, groups, documents, delegations and revocations never go down; saving and loading changes none. The number reported as the prekeys of the active agent is the number of their prekeys.", "quantifier": "every state of a client, every sequence of calls and received events", "why_tests_cant": "the numbers are sums over maps of any size in any state", "anchors": ["keyhive_core/src/keyhive.rs: stats", "keyhive_core/src/stats.rs: Stats", "beekem/src/cgka.rs: ops_count"]}
{"id": "C70", "title": "The digest of the current key that a client reports is that of the key it seals with", "statement": "try_pcs_key_hash reports the digest of the current key of a document. Asking changes no operations, members or keys of other documents. Content that is sealed next without making an operation is sealed under the key with that digest. Two clients that know the same operations, of which one is the newest, report the same digest. The next content is sealed under the key that was reported.", "quantifier": "every state of a client, every team of clients and every history of calls and deliveries, every content", "why_tests_cant": "the key at the root depends on the whole history of concurrent changes that the client took", "anchors": ["keyhive_core/src/keyhive.rs: try_pcs_key_hash", "keyhive_core/src/cgka.rs: try_pcs_key_hash", "beekem/src/cgka.rs: pcs_key_from_tree_root"]}
