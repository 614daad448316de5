{
 "claims": [
  {
   "property": "C01",
   "status": "proved",
   "theorems": [
    "tree_navigation_laws",
    "tree_navigation_coordinates",
    "subtree_is_split_by_children"
   ],
   "note": ""
  },
  {
   "property": "C02",
   "status": "proved",
   "theorems": [
    "direct_path_is_ancestors"
   ],
   "note": ""
  },
  {
   "property": "C03",
   "status": "proved",
   "theorems": [
    "tree_size_new_least",
    "tree_size_for_leaves",
    "tree_size_for_leaves_not_least",
    "tree_size_doubling",
    "from_leaf_count_fits"
   ],
   "note": "tree_size_for_leaves_not_least records that from_leaf_count is not minimal at powers of two"
  },
  {
   "property": "C04",
   "status": "proved",
   "theorems": [
    "key_tree_members",
    "key_tree_never_panics"
   ],
   "note": "for the uncontended operations add, remove, update; concurrent replay is C14"
  },
  {
   "property": "C05",
   "status": "proved",
   "theorems": [
    "removal_blanks_path",
    "last_member_not_removed"
   ],
   "note": ""
  },
  {
   "property": "C06",
   "status": "proved",
   "theorems": [
    "update_seals_path",
    "update_reaches_exactly_members"
   ],
   "note": ""
  },
  {
   "property": "C07",
   "status": "proved",
   "theorems": [
    "members_agree_after_update",
    "members_always_agree",
    "replica_follows_update"
   ],
   "note": ""
  },
  {
   "property": "C08",
   "status": "proved",
   "theorems": [
    "superseded_secrets_useless",
    "removed_members_locked_out"
   ],
   "note": "symbolic (Dolev-Yao) secrecy"
  },
  {
   "property": "C09",
   "status": "proved",
   "theorems": [
    "node_key_merge_keys",
    "node_key_merge_order"
   ],
   "note": ""
  },
  {
   "property": "C10",
   "status": "partial",
   "theorems": [
    "store_never_empty",
    "store_versions_partial",
    "store_versions_sorted_refuted"
   ],
   "note": "the lexicographic order is not kept by merge (refuted with a witness); which versions survive is order independent"
  },
  {
   "property": "C11",
   "status": "proved",
   "theorems": [
    "C11_missing_predecessor_rejected",
    "C11_duplicate_ignored",
    "C11_accepted",
    "C11_failure_keeps_history",
    "C11_concurrent_change_accepted",
    "C11_history_closed",
    "C11_history_grows",
    "C11_pending_only_when_concurrent"
   ],
   "note": ""
  },
  {
   "property": "C12",
   "status": "proved",
   "theorems": [
    "heads_exact",
    "graph_causal",
    "heads_cover",
    "heads_function_of_ops",
    "add_heads_exact",
    "graph_merge_heads_refuted"
   ],
   "note": "for delivery of operations; merging whole graphs (fork/merge) breaks it, recorded by graph_merge_heads_refuted"
  },
  {
   "property": "C13",
   "status": "proved",
   "theorems": [
    "replay_order_causal",
    "replay_function_of_ops",
    "concurrent_ops_share_epoch",
    "replay_complete_refuted",
    "replay_deterministic_refuted"
   ],
   "note": "under the hypothesis that only the creating operation has no predecessors; the code accepts a second root from the network and then drops or misorders it, recorded by the two refutations"
  },
  {
   "property": "C14",
   "status": "partial",
   "theorems": [
    "C14_added_member_kept_refuted",
    "C14_one_leaf_each_refuted",
    "C14_replay_succeeds_refuted",
    "C14_replay_terminates_refuted",
    "C14_grow_replay_partial",
    "C14_grow_settled_partial",
    "C14_grow_receive_partial",
    "C14_grow_add_partial"
   ],
   "note": "the property as stated is false of the code: machine-checked counterexamples reachable by honest replicas; proved for all networks in which nobody is removed and nobody is added twice, however additions and updates are made, interleaved and delivered; with removals and re-additions, when they take turns, it is C52"
  },
  {
   "property": "C15",
   "status": "proved",
   "theorems": [
    "C15_round_trip",
    "C15_key_bound",
    "C15_wrong_key",
    "C15_decryption_key_bound",
    "C15_epoch_field_refuted"
   ],
   "note": "symbolic key derivation and encryption; the unauthenticated epoch field is recorded as a refutation"
  },
  {
   "property": "C16",
   "status": "proved",
   "theorems": [
    "C16_chain",
    "C16_total_order",
    "C16_max_min",
    "C16_monotone",
    "C16_levels",
    "C16_capability_is_best"
   ],
   "note": ""
  },
  {
   "property": "C17",
   "status": "proved",
   "theorems": [
    "C17_accepted_chain",
    "C17_no_escalation",
    "C17_group_may_delegate",
    "C17_member_may_delegate",
    "C17_add_member"
   ],
   "note": "signatures are assumed genuine; access computed through nested groups is a separate property (C44)"
  },
  {
   "property": "C18",
   "status": "partial",
   "theorems": [
    "C18_accepted",
    "C18_group_may_revoke",
    "C18_outsider_refuted",
    "C18_admin_refuted"
   ],
   "note": "false of the code as stated: the issuer is not checked when the authority is the revoked delegation or an ancestor, and admins cannot revoke members added by others; what acceptance does imply is proved"
  },
  {
   "property": "C19",
   "status": "partial",
   "theorems": [
    "C19_untouched_kept",
    "C19_revoked_gone",
    "C19_group_removes_member",
    "C19_dependents_gone_partial",
    "C19_dependents_refuted"
   ],
   "note": "the revoked delegation itself goes and unaffected ones stay; delegations resting on it survive in the code (refuted), and go only under the stated condition"
  },
  {
   "property": "C20",
   "status": "partial",
   "theorems": [
    "C20_converge_partial",
    "C20_revoked_twice_refuted",
    "C20_same_grant_refuted"
   ],
   "note": "proved when no delegation has two revocations and no two delegations say the same; both conditions are necessary by machine-checked counterexamples"
  },
  {
   "property": "C21",
   "status": "proved",
   "theorems": [
    "C21_replay_order",
    "C21_orderable",
    "C21_heads_cover",
    "C21_cycle_refuted"
   ],
   "note": "the satisfiability condition is necessary: see the refutation"
  },
  {
   "property": "C22",
   "status": "proved",
   "theorems": [
    "C22_members"
   ],
   "note": ""
  },
  {
   "property": "C23",
   "status": "proved",
   "theorems": [
    "C23_individuals",
    "C23_group_individuals",
    "C23_prekey_individuals"
   ],
   "note": ""
  },
  {
   "property": "C24",
   "status": "proved",
   "theorems": [
    "C24_prekeys",
    "C24_order_irrelevant",
    "C24_merge_laws",
    "C24_merge_is_receive",
    "C24_owner_agrees",
    "C24_rotated_out_for_good",
    "C24_owner_has_secrets"
   ],
   "note": "digests are collision free: a map of operations is the set of operations"
  },
  {
   "property": "C25",
   "status": "partial",
   "theorems": [
    "C25_never_empty",
    "C25_never_shrinks",
    "C25_pick",
    "C25_pick_terminates",
    "C25_pick_small",
    "C25_pick_32_bit",
    "C25_shrinks_refuted",
    "C25_empty_refuted",
    "C25_pick_refuted"
   ],
   "note": "proved for individuals that generate fresh keys, whatever part of the history is known, and for up to fifteen prekeys; false for an individual that rotates in a circle and for sixteen prekeys (pick panics)"
  },
  {
   "property": "C26",
   "status": "partial",
   "theorems": [
    "C26_export",
    "C26_export_complete",
    "C26_contact_card_refuted",
    "C26_circle_refuted",
    "C26_twice_refuted"
   ],
   "note": "termination, once each and causal order proved for every part of an honest history; complete only for operations that descend from a known added key; endless for circular rotations"
  },
  {
   "property": "C27",
   "status": "partial",
   "theorems": [
    "C27_receive",
    "C27_others_untouched",
    "C27_known_protected",
    "C27_only_own",
    "C27_public_fixed",
    "C27_unknown_refuted",
    "C27_public_refuted"
   ],
   "note": "holds for individuals already known; a forged operation for an unknown individual is stored"
  },
  {
   "property": "C28",
   "status": "partial",
   "theorems": [
    "C28_terminates",
    "C28_terminates_in_memory",
    "C28_one_answer",
    "C28_sound",
    "C28_once",
    "C28_complete",
    "C28_next",
    "C28_next_not_done",
    "C28_ok_sufficient",
    "C28_ok_means_all",
    "C28_marked",
    "C28_document",
    "C28_unambiguous",
    "C28_error_refuted",
    "C28_next_done_refuted",
    "C28_document_missing_refuted",
    "C28_endless_refuted"
   ],
   "note": "termination, soundness, once-each and completeness proved for the in-memory store and every store that never fails; a wrong ancestor key makes the call fail although everything was decrypted, a missing direct ancestor of the entry is not reported, and a failing store with a self-referring envelope is asked for ever (refuted)"
  },
  {
   "property": "C29",
   "status": "partial",
   "theorems": [
    "C29_by_reference",
    "C29_by_update",
    "C29_map",
    "C29_remove_hides_refuted",
    "C29_remove_loses_refuted",
    "C29_wrong_update_refuted"
   ],
   "note": "the map laws hold for insertion and for stores with one ciphertext per content reference; single removals hide or lose other ciphertexts, and lookup by update operation can return a ciphertext of another one (refuted)"
  },
  {
   "property": "C30",
   "status": "partial",
   "theorems": [
    "C30_open_seal",
    "C30_only_genuine",
    "C30_no_malleability",
    "C30_other_key",
    "C30_truncated",
    "C30_nonces",
    "C30_nonce_unchecked",
    "C30_derived_nonce_refuted",
    "C30_envelope",
    "C30_envelope_content",
    "C30_envelope_truncated",
    "C30_envelope_collision",
    "C30_envelope_last",
    "C30_envelope_refuted"
   ],
   "note": "everything proved except that ancestors survive: the envelope is keyed by a 64-bit hash, so ancestors with colliding hashes are lost (refuted); the nonce is not recomputed on opening"
  },
  {
   "property": "C31",
   "status": "partial",
   "theorems": [
    "C31_takes_exactly",
    "C31_groups_from_ops",
    "C31_converge",
    "C31_team_order_refuted",
    "C31_prekey_first_refuted",
    "C31_revocation_hangs_refuted",
    "C31_panic_refuted",
    "C31_circle_hangs_refuted",
    "C31_kind_order_refuted",
    "C31_concurrent_refuted"
   ],
   "note": "For events in which no authority comes from membership in a team and no group has prekeys (tame), any batches in any order terminate, take exactly the operations to be taken and leave exactly the rest pending, and any two clients agree. Outside that the property is false of the code: seven counterexamples."
  },
  {
   "property": "C32",
   "status": "partial",
   "theorems": [
    "C32_offered",
    "C32_complete",
    "C32_keys",
    "C32_taken",
    "C32_batch_keys",
    "C32_batch_partial",
    "C32_removed_unknown_refuted",
    "C32_removed_seen_refuted",
    "C32_document_member_refuted",
    "C32_batch_refuted"
   ],
   "note": "For clients whose events are tame (as in C31): the query ends and gives exactly the specified operations, closed under dependencies; a new client takes all of them if it knows, or is sent the prekeys of, every delegate. That condition fails for removed individuals and for documents that are members of a group, and the revocations of nested groups are not sent (refuted). The batch query agrees for prekeys and group-key operations, and for membership operations under a stated condition; otherwise refuted."
  },
  {
   "property": "C33",
   "status": "partial",
   "theorems": [
    "C33_membership",
    "C33_kept",
    "C33_prekey",
    "C33_prekey_kept",
    "C11_duplicate_ignored",
    "C33_prekey_refuted"
   ],
   "note": "Delegations and revocations once taken are ignored for ever; prekey operations when repeated at once or while their holder is known; group-key operations by C11_duplicate_ignored. False for a prekey operation whose individual was dropped by a promotion."
  },
  {
   "property": "C34",
   "status": "partial",
   "theorems": [
    "C34_round_trip",
    "C34_received",
    "C34_calls_kept",
    "C34_order",
    "C34_goes_on",
    "C34_goes_on_batches",
    "C34_recovers",
    "C34_takeover",
    "C34_revoked_refuted",
    "C34_promoted_refuted",
    "C34_cycle_refuted",
    "C34_takeover_refuted",
    "C34_foreign_refuted",
    "C34_unregistered_refuted"
   ],
   "note": "Proved for every client that has what its operations refer to, which includes every client that received tame events, and is kept by every call that makes groups or documents, adds or removes members, changes keys or makes prekeys: what comes back is the same up to active revocations and behaves the same from then on. False: active revocations are lost until the next operation of the group, and a client with a dropped individual, with a member it has no record of, or with operations that cannot be ordered can be stored but not loaded (refuted)."
  },
  {
   "property": "C35",
   "status": "partial",
   "theorems": [
    "C35_blocking",
    "C35_aborted_invisible",
    "C35_sets",
    "C35_commits",
    "C35_ends_well",
    "C35_maps",
    "C35_fork_effect_refuted",
    "C35_active_refuted",
    "C35_active_shared",
    "C35_received_refuted",
    "C35_rejected_refuted",
    "C35_unregistered_refuted",
    "C35_race_refuted",
    "C35_secret_refuted",
    "C35_public_refuted"
   ],
   "note": "Proved for the generic transaction functions over sets and maps under every interleaving; and for a whole client and every body of own calls: a transaction that ends well leaves the groups, documents, members, delegations, revocations, individuals and secrets of the fork. False of the code for removals and changes of existing entries, for the active agent, and for a whole client: grants received inside are lost, rejected revocations, unregistered agents and a race with losing access make the merge panic, secrets of key updates stay on the fork, and adding Public takes over the client's place (refuted)."
  },
  {
   "property": "C36",
   "status": "partial",
   "theorems": [
    "C36_rejected",
    "C36_other_documents",
    "C36_stranger_refuted"
   ],
   "note": "Bad signatures and unknown documents change nothing, and an operation can only change the key of its own document; but the issuer is never compared with the members, so a stranger can add themselves and read (refuted)."
  },
  {
   "property": "C37",
   "status": "partial",
   "theorems": [
    "C37_revoke",
    "C37_revoke_only",
    "C37_managed",
    "C37_cascade_refuted",
    "C37_nested_refuted",
    "C37_late_refuted",
    "C37_added_twice_refuted"
   ],
   "note": "Proved for the individuals behind the revoked agent in every client whose group key has no unapplied operations, and as an equivalence for clients that manage their groups alone. False for individuals whose grant rested on the revoked one, for documents inside documents, and when an unapplied operation re-adds the individual (refuted). Somebody whom two members added at the same time can still read after being revoked (refuted)."
  },
  {
   "property": "C38",
   "status": "partial",
   "theorems": [
    "C38_nothing_lost",
    "C38_pop_latest_is_oldest",
    "C38_pop_earliest_is_newest",
    "C38_pop_none",
    "C38_in_order",
    "C38_names_refuted",
    "C38_log_nothing_lost",
    "C38_log_in_order",
    "C38_log_pop",
    "C38_log_len"
   ],
   "note": "everything proved, except that pop_latest returns the oldest event and pop_earliest the newest (refuted)"
  },
  {
   "property": "C39",
   "status": "partial",
   "theorems": [
    "C39_right_value",
    "C39_history",
    "C39_insert",
    "C39_remove",
    "C39_merge",
    "C39_merge_laws",
    "C39_roundtrip",
    "C39_extend_refuted",
    "C39_load_refuted",
    "C39_order_refuted"
   ],
   "note": "proved for all operations that do not bring in an entry under a foreign digest; extending and loading do not check this, and the order on maps is not an order (refuted)"
  },
  {
   "property": "C40",
   "status": "partial",
   "theorems": [
    "C40_zero_bytes",
    "C40_zero_bits_partial",
    "C40_zero_bits_refuted",
    "C40_overflow_refuted"
   ],
   "note": "zero bytes are right; zero bits are counted in the whole last byte, and the zero digest overflows (refuted)"
  },
  {
   "property": "C41",
   "status": "proved",
   "theorems": [
    "C41_replicas_converge",
    "C41_several_heads_refuted"
   ],
   "note": "the single-head hypothesis is needed: see the refutation"
  },
  {
   "property": "C42",
   "status": "proved",
   "theorems": [
    "C42_epoch_key_agreement",
    "C42_current_key_agreement"
   ],
   "note": ""
  },
  {
   "property": "C43",
   "status": "proved",
   "theorems": [
    "C43_content_opens",
    "C43_author_reads",
    "C43_keys_kept"
   ],
   "note": ""
  },
  {
   "property": "C44",
   "status": "partial",
   "theorems": [
    "C44_two_levels_partial",
    "C44_one_access_partial",
    "C44_bounds_partial",
    "C44_client_partial",
    "C44_accepted_partial",
    "C44_accepted_bounds_partial",
    "C44_add_member_partial",
    "C22_flat_access_partial",
    "C22_access_refuted",
    "C22_order_refuted",
    "C17_nested_groups_refuted"
   ],
   "note": "proved: the best access in groups without groups in them; in groups whose groups contain no groups the reported access is that of some chain, and nobody adds a member beyond it; for any nesting, bounds by what is delegated anywhere below. False of the code in general: with one more level the access exceeds every chain, and with several chains it need not be the best and depends on the iteration order"
  },
  {
   "property": "C45",
   "status": "proved",
   "theorems": [
    "C17_add_member",
    "C18_revoke_member"
   ],
   "note": ""
  },
  {
   "property": "C46",
   "status": "partial",
   "theorems": [
    "C46_members",
    "C46_new_document",
    "C46_add",
    "C46_update_reaches",
    "C46_relay_refuted",
    "C46_nested_refuted"
   ],
   "note": "Proved for clients that change memberships by themselves, give at least read access and do not nest documents. False for relays added through a group and for members of nested documents (refuted)."
  },
  {
   "property": "C47",
   "status": "partial",
   "theorems": [
    "C47_outsiders",
    "C47_creator_refuted"
   ],
   "note": "Proved for individuals other than the document itself, in clients that manage their groups alone. The document's own place is never removed and its creator has the secret, so a removed creator can still read (refuted)."
  },
  {
   "property": "C48",
   "status": "proved",
   "theorems": [
    "C48_receives_in_order",
    "C48_catches_up",
    "C48_informed_agree",
    "C48_one_roster",
    "C48_one_head",
    "C48_key_holders_read",
    "C48_members_read",
    "C48_members_write"
   ],
   "note": "For networks whose operations are made in turn; what concurrent operations break is C14 and C41."
  },
  {
   "property": "C49",
   "status": "proved",
   "theorems": [
    "C49_key_of_a_moment",
    "C49_every_run_logged",
    "C49_ledger_names",
    "C49_outsiders_locked_out",
    "C49_other_times_locked_out",
    "C49_members_open"
   ],
   "note": "For networks whose operations are made in turn. Symbolic cryptography: what can be derived is closed under opening sealed secrets with derivable keys."
  },
  {
   "property": "C50",
   "status": "partial",
   "theorems": [
    "C50_calls_return_partial",
    "C50_one_task_returns",
    "C50_new_document_and_prekeys_refuted",
    "C50_adding_own_team_refuted",
    "C50_three_calls_refuted",
    "C50_relevant_documents_refuted",
    "C50_counts_refuted",
    "C50_promotion_refuted",
    "C50_circular_groups_refuted",
    "C50_revocation_of_stranger_refuted"
   ],
   "note": "Proved for every pool of calls of the kinds in `orderly`, on clients without circular groups, for every schedule and cancellation; and one task on its own always returns, unless it receives a revocation for an unknown group. The other kinds can deadlock: making a document at the same time as prekeys or a group, adding an own team to a document at the same time as listing documents, receiving an invitation or sealing, adding with relevant documents given, counting at the same time as receiving, and walks through circular groups (refuted)."
  },
  {
   "property": "C51",
   "status": "proved",
   "theorems": [
    "C51_members_have_key",
    "C51_members_read",
    "C51_public_has_key",
    "C51_public_reads",
    "C51_members_update",
    "C51_members_seal",
    "C51_receive_keeps_own",
    "C51_racing_addition_refuted",
    "C51_two_devices_refuted"
   ],
   "note": "Proved for all such networks, with additions, removals and re-additions. The conditions are needed: if an addition races with an update, members who have all their secrets can be locked out for good, and if a member updates from two devices at the same time, the next update of other members panics (both refuted by witness)."
  },
  {
   "property": "C52",
   "status": "proved",
   "theorems": [
    "C52_tree",
    "C52_agree",
    "C52_receive",
    "C52_received",
    "C52_add",
    "C52_remove"
   ],
   "note": "Proved for all networks whose changes of members take turns, with updates at any time; what changes of members that do not take turns break is C14."
  },
  {
   "property": "C53",
   "status": "proved",
   "theorems": [
    "C53_message_closed",
    "C53_key_closed",
    "C53_outsiders_locked_out",
    "C53_members_open"
   ],
   "note": "Proved for all networks whose changes of members take turns, with updates at any time, against symbolic attackers who hold any set of secrets and everything ever sent."
  },
  {
   "property": "C54",
   "status": "partial",
   "theorems": [
    "C54_removal_partial",
    "C52_remove",
    "C52_add",
    "C54_removal_ignored_refuted",
    "C54_addition_ignored_refuted",
    "C54_added_twice_refuted"
   ],
   "note": "Proved for groups whose changes of members take turns. False otherwise: with a concurrent operation received but not yet applied, removing or adding somebody can return without error and do nothing, and somebody whom two members added at the same time keeps a leaf after the removal, reads everything from then on and cannot be removed any more (refuted)."
  },
  {
   "property": "C55",
   "status": "proved",
   "theorems": [
    "C55_gathers",
    "C55_members_read",
    "C55_others_locked_out"
   ],
   "note": "Proved for all networks whose changes of members take turns, with updates at any time and replicas that are behind."
  },
  {
   "property": "C56",
   "status": "proved",
   "theorems": [
    "C56_network",
    "C56_network_steps",
    "C56_roster",
    "C56_members_seal",
    "C56_delivery",
    "C56_denial",
    "C56_no_place",
    "C56_add",
    "C56_revoke",
    "C56_revoked_locked_out",
    "C56_added_reads"
   ],
   "note": "Proved for all teams and all runs; the effects of adding and revoking for clients whose groups have well-signed histories (as in C46 and C37), revoking where the document still has its own place in its key. What goes wrong when changes do not take turns is in C14, C37, C51 and C54."
  },
  {
   "property": "C57",
   "status": "partial",
   "theorems": [
    "C57_heard",
    "C57_keys_sound",
    "C57_received_keys",
    "C57_received_revocation",
    "C57_received_refuted",
    "C57_prekey_refuted",
    "C57_rejected_refuted",
    "C57_failed_refuted"
   ],
   "note": "Proved for every sequence of successful calls of a client's own (nothing missing, nothing made up, in an order in which it can be received), and for operations of keys and revocations that are received. False for delegations and prekey operations that are received (not told), for revocations that are refused (told all the same), and for adding a member to a group when one of several documents fails (the keys already changed are not told): refuted."
  },
  {
   "property": "C58",
   "status": "partial",
   "theorems": [
    "C58_same_call",
    "C58_add",
    "C58_revoke",
    "C58_revoke_keys",
    "C58_update",
    "C58_encrypt",
    "C58_decrypt",
    "C58_received",
    "C58_leave_refuted",
    "C58_two_grants_refuted",
    "C58_received_revocation_refuted",
    "C58_received_prekey_refuted",
    "C58_add_refuted"
   ],
   "note": "Proved: keys of every call; members for clients all of whose document keys are up to date (adding; revoking somebody else's only grant); received delegations, operations of keys, revocations for known groups, prekeys of somebody on record. False, with counterexamples: leaving while keeping others, revoking somebody with grants by two issuers, adding to a team one of whose documents has no key yet, refused revocations for groups known by prekeys only, refused first prekeys."
  },
  {
   "property": "C59",
   "status": "proved",
   "theorems": [
    "C59_any_order",
    "C59_same",
    "C59_catch_up",
    "C59_one_roster",
    "C59_reads"
   ],
   "note": "For key operations made by the clients of a team, of documents the client knows and whose changes of members take turns (as in C51). An operation that adds the client itself arrives only if the client has the secret of the prekey that was used. Events of other kinds in any order are C31."
  },
  {
   "property": "C60",
   "status": "proved",
   "theorems": [
    "C60_late",
    "C60_import",
    "C60_second_device"
   ],
   "note": "In the setting of C59. The encoding as bytes is not modelled."
  },
  {
   "property": "C61",
   "status": "proved",
   "theorems": [
    "C61_prekeys",
    "C61_invited",
    "C61_catches_up",
    "C61_contact_card"
   ],
   "note": "For people with one client each that makes prekeys, calls that add only people with a prekey on record, and prekey operations signed by their makers. Which of the prekeys on record is used is any function of the client, the person and the document."
  },
  {
   "property": "C62",
   "status": "proved",
   "theorems": [
    "C62_groups",
    "C62_tidy",
    "C62_authority",
    "C62_kept",
    "C62_revoked",
    "C62_agree"
   ],
   "note": "For operations whose signatures tell them apart, no two of which say the same about the same group, and that refer to operations of the same group (the second is needed: C20_same_grant_refuted). Agreement asks that no delegation is revoked twice, effects of revocations that the operations can be ordered, as in C19 and C20. Events that make a group of somebody known as an individual are left out."
  },
  {
   "property": "C63",
   "status": "proved",
   "theorems": [
    "C63_members",
    "C63_docs",
    "C63_membered",
    "C63_access",
    "C63_best",
    "C63_capabilities",
    "C63_revoked",
    "C63_delegated",
    "C63_same_people",
    "C63_revoked_gone_refuted"
   ],
   "note": "In the setting of C62; the last two claims under the conditions of C62_kept and C62_agree. Which access is reported for nested groups is C44. Refuted, and not part of the claim: that somebody listed as revoked has no access any more."
  },
  {
   "property": "C64",
   "status": "partial",
   "theorems": [
    "C64_kept",
    "C64_known",
    "C64_lookup",
    "C64_lookup_stays",
    "C64_revoked_for_good",
    "C64_member_until_revoked",
    "C64_register_peer",
    "C64_register_individual",
    "C64_register_group",
    "C64_promotion_refuted",
    "C64_register_group_refuted",
    "C64_register_individual_refuted"
   ],
   "note": "Proved for every sequence of calls and events in the setting of C62. False for a group whose key was known as an individual (both are forgotten), for registering a group by a delegation that is not its first, and for registering an individual under the identifier of a group (refuted)."
  },
  {
   "property": "C65",
   "status": "partial",
   "theorems": [
    "C65_restored",
    "C65_revoked_empty",
    "C65_revoked_refuted"
   ],
   "note": "Proved in the setting of C62 for everything but the list of revoked members, which is always empty after loading (refuted). Both clients are asked with the same iteration order of hash maps; on another order the access reported through nested groups may depend (C44)."
  },
  {
   "property": "C66",
   "status": "proved",
   "theorems": [
    "C66_generate_group",
    "C66_generate_doc",
    "C66_add_member",
    "C66_revoke_member",
    "C66_content",
    "C66_prekeys",
    "C66_goes_on",
    "C66_answers"
   ],
   "note": "Both clients use the same iteration order of hash maps and the choice of a prekey depends on the stored individuals only (individual.rs 119-127); C66_goes_on has the hypotheses of C65_restored."
  },
  {
   "property": "C67",
   "status": "proved",
   "theorems": [
    "C67_add",
    "C67_revoke",
    "C67_group",
    "C67_doc",
    "C67_receive",
    "C67_other",
    "C67_acquainted",
    "C67_restored"
   ],
   "note": "The first six have no hypotheses on the state. C67_acquainted and C67_restored are in the setting of C62."
  },
  {
   "property": "C68",
   "status": "partial",
   "theorems": [
    "C68_answers",
    "C68_delegation",
    "C68_revocation",
    "C68_key",
    "C68_forged",
    "C68_document_refuted",
    "C68_secret_refuted",
    "C68_chain_refuted"
   ],
   "note": "The last sentence is false of the code: an operation of the key of a document that is not known yet, an addition of the owner with a prekey whose secret comes later, and a delegation whose issuer becomes a member of the delegating team later are all refused with the answer no, and taken later. C68_key is one direction: errors of the tree can also answer yes. ingest_unsorted_static_events does not ask, it keeps every refused event (C31)."
  },
  {
   "property": "C69",
   "status": "partial",
   "theorems": [
    "C69_things",
    "C69_operations",
    "C69_waiting",
    "C69_queue",
    "C69_grows",
    "C69_loaded",
    "C69_active_prekeys_refuted"
   ],
   "note": "The last sentence is false of the code: active_prekey_count is the number of prekey operations, so rotating a prekey raises it. C69_things, C69_waiting and C69_queue have no hypotheses on the state; the others are in the setting of C62."
  },
  {
   "property": "C70",
   "status": "partial",
   "theorems": [
    "C70_quiet",
    "C70_seals",
    "C70_agree",
    "C70_next_refuted"
   ],
   "note": "The last sentence is false of the code: an addition that the client took but has not worked into the tree is ignored, so the digest of a stale key is reported and the next content is sealed under a new one. C70_quiet and C70_seals have no hypotheses on the state; C70_agree is in the setting of C42 and compares clients that both report a digest."
  }
 ]
}