{
 "claims": [
  {
   "property": "C01",
   "status": "proved",
   "theorems": [
    "C01_slow_slow",
    "C01_slow_fast",
    "C01_slow_viewchange",
    "C01_fast_viewchange",
    "C01_viewchange_viewchange",
    "C01_complaints_honest",
    "C01_available"
   ],
   "note": "Quorum arithmetic for all f, c and all fault sets of size at most f."
  },
  {
   "property": "C02",
   "status": "partial",
   "theorems": [
    "C02_forged_certificates_refuted",
    "C02_agreement_in_view",
    "C02_certificates_agree",
    "C02_commit_stays"
   ],
   "note": "Proved for all reachable states of the consensus model (any schedule, any Byzantine messages from at most f replicas), where a certificate needs different signers. The multi-signature verifier of the code does not check that the signers differ: C02_forged_certificates_refuted."
  },
  {
   "property": "C03",
   "status": "partial",
   "theorems": [
    "C03_batch_survives_partial",
    "C03_any_commits_agree_partial",
    "C03_crash_faults_batch_survives",
    "C03_first_window_batch_survives_partial",
    "C03_slow_commit_survives_partial",
    "C03_executed_was_committed",
    "C03_executed_agree_partial",
    "C03_first_half_is_covered",
    "C03_null_commit_refuted",
    "C03_stable_report_refuted",
    "C03_time_service_refuted",
    "C03_bad_signature_refuted"
   ],
   "note": "Proved for crash faults without further assumption; with Byzantine replicas under the stated side conditions (no time service, consistent signature verdicts, lower bound of the new view reported by enough correct replicas). Each side condition is shown necessary: without it the model has a counterexample run (_refuted theorems)."
  },
  {
   "property": "C04",
   "status": "partial",
   "theorems": [
    "C04_restrictions_follow_rule",
    "C04_rule_functional",
    "C04_order_independent",
    "C04_order_independent_refuted",
    "C04_single_replica_refuted"
   ],
   "note": "Proved for all message sets with consistent signature verdicts and f+c>=1; refuted in general (duplicate certificate with a bad signature shadows a valid one; f=c=0)."
  },
  {
   "property": "C05",
   "status": "proved",
   "theorems": [
    "C05_lower_bound",
    "C05_backed_by_correct",
    "C05_defined"
   ],
   "note": "All quorums and fault sets."
  },
  {
   "property": "C06",
   "status": "proved",
   "theorems": [
    "C06_views",
    "C06_views_backed_by_correct"
   ],
   "note": "All message arrays and fault sets."
  },
  {
   "property": "C07",
   "status": "proved",
   "theorems": [
    "C07_window_is_a_map",
    "C07_read_back",
    "C07_new_items_blank"
   ],
   "note": "All template instances, item types and operation sequences; refinement of a map."
  },
  {
   "property": "C08",
   "status": "partial",
   "theorems": [
    "C08_never_aborts",
    "C08_reply_kept",
    "C08_bounded",
    "C08_restart_same",
    "C08_executed_once_partial",
    "C08_duplicate_in_batch_refuted",
    "C08_replay_refuted",
    "C08_number_zero_refuted",
    "C08_position_unchecked_refuted"
   ],
   "note": "Proved for all operation sequences incl. restarts: no abort, replies kept and returned byte-identical, bounds, restart equality; at-most-once execution under two side conditions on proposals, each shown necessary by a counterexample (_refuted)."
  },
  {
   "property": "C09",
   "status": "partial",
   "theorems": [
    "C09_match_sound_partial",
    "C09_match_correct_partial",
    "C09_match_complete_partial",
    "C09_result_ignored_refuted",
    "C09_primary_only_refuted",
    "C09_converter",
    "C09_linearizable_readonly_refuted"
   ],
   "note": "Soundness, correctness and completeness of the client reply matcher for all reply sequences; the full claim is refuted: the reply order ignores the result field, so one Byzantine reply can be merged with honest ones; primary-only and read-only destination configurations."
  },
  {
   "property": "C10",
   "status": "partial",
   "theorems": [
    "C10_complete_is_verified",
    "C10_own_combination",
    "C10_complete_distinct_partial",
    "C10_no_abort",
    "C10_progress_partial",
    "C10_jobs_end",
    "C10_one_signer_suffices_refuted",
    "C10_complete_with_one_signer_refuted",
    "C10_wrong_replica_blamed_refuted",
    "C10_livelock_refuted",
    "C10_out_of_range_share_refuted",
    "C10_bad_length_aborts_refuted"
   ],
   "note": "All interleavings of shares, combined signatures, job completions, resets. Different signers only if received combined signatures do not repeat a signer (refuted otherwise); progress when shares carry the id of their sender (refuted otherwise). That results of another view are dropped is built into the model (reset drops the job)."
  },
  {
   "property": "C11",
   "status": "partial",
   "theorems": [
    "C11_complete_iff",
    "C11_best_message",
    "C11_best_is_correct",
    "C11_not_inconsistent",
    "C11_self_complete_partial",
    "C11_self_complete_if_enough",
    "C11_self_counted_twice_refuted",
    "C11_checkpoint_stable_with_two_refuted",
    "C11_st_inconsistent_refuted"
   ],
   "note": "All message types, quorum sizes and histories. Without a local message: complete exactly when enough different replicas agree. With a trusted local message the code counts it twice when an equal message came first: proved with one replica less, the full claim refuted."
  },
  {
   "property": "C12",
   "status": "partial",
   "theorems": [
    "C12_root_hash_is_canonical",
    "C12_history_independent",
    "C12_leaves_are_the_content",
    "C12_latest_tree_is_stored",
    "C12_stale_nodes_are_exact",
    "C12_stale_leaves_are_exact_partial",
    "C12_version",
    "C12_old_versions_stay_readable",
    "C12_root_hash_binds_values_partial",
    "C12_keys_not_bound_refuted",
    "C12_duplicate_put_refuted",
    "C12_empty_tree_refuted"
   ],
   "note": "Proved for the batched tree, walker, update cache and Tree::update, over every sequence of updates and prunings, for any hash: no assertion fails and no node is missing, the root hash is the canonical hash of the content (history independent), the reachable leaves are the content, stale nodes are exact, old versions stay readable until pruned, the version grows iff something changed. Stale leaves exact if no key is put twice in one batch (refuted otherwise). The root hash fixes the values when the key sets agree and the hash is injective; it does not fix the keys (refuted). Not modelled: serialization of nodes into RocksDB, key and value hashing (they are inputs), the merkle database adapter above the tree."
  },
  {
   "property": "C13",
   "status": "partial",
   "theorems": [
    "C13_reads_partial",
    "C13_latest_unique",
    "C13_multi_reads",
    "C13_stale_keys_partial",
    "C13_update_and_delete_refuted",
    "C13_revert_after_pruning_refuted",
    "C13_value_proofs_complete_partial",
    "C13_proof_with_delete_refuted",
    "C13_value_proofs_sound_partial",
    "C13_proof_index_out_of_range_refuted",
    "C13_proof_odd_index_refuted"
   ],
   "note": "Versioned category, all histories of added, pruned and reverted blocks under two side conditions, each shown necessary (_refuted): no block updates and deletes one key; no block pruned since a reverted block was added held a previous value. Value proofs: complete for blocks without deletions (refuted otherwise: assertion), sound for even indices in range (refuted otherwise). RocksDB is a map with atomic batches."
  },
  {
   "property": "C14",
   "status": "partial",
   "theorems": [
    "C14_reads_partial",
    "C14_tag_hashes",
    "C14_tag_proofs_partial",
    "C14_rewrite_refuted"
   ],
   "note": "Immutable category, all histories in which no key is written while a block of the chain holds it (the code does not enforce this: refuted otherwise). Tag hashes for all inputs with distinct tags; proofs complete; soundness of the proof type: C13_value_proofs_sound_partial."
  },
  {
   "property": "C15",
   "status": "partial",
   "theorems": [
    "C15_cat_chain",
    "C15_cat_hash_link",
    "C15_cat_replicas_agree",
    "C15_cat_add",
    "C15_cat_restart",
    "C15_cat_delete",
    "C15_cat_reads",
    "C15_cat_link",
    "C15_cat_start_links",
    "C15_cat_update_and_delete_refuted",
    "C15_cat_put_again_does_not_link_refuted",
    "C15_contiguous",
    "C15_hash_linked_partial",
    "C15_digest_fixes_chain_partial",
    "C15_restart",
    "C15_blocks_never_change",
    "C15_add",
    "C15_delete_at_ends",
    "C15_link",
    "C15_link_applies",
    "C15_receive",
    "C15_link_same_chain_partial",
    "C15_hash_link_refuted",
    "C15_delete_files_crash_refuted",
    "C15_repeated_last_block_refuted"
   ],
   "note": "v4 block chain, all histories of adds, deletions, state transfer, crashes and restarts: contiguous ids, blocks never change, deletion only at the ends, linking up to the first gap, same chain as the source. Hash links for executions that delete the last block only before the first add of a process (refuted otherwise); crash during delete_files_in_range and repeated last block refuted. Categorized chain (versioned and immutable categories; block-merkle categories not): for all executions incl. deletion of the last block, failed adds and restarts the raw blocks are a function of the updates, contiguous, hash-linked; deleteBlock in all cases; linking up to the first gap gives the source chain, also after a crash; reads are those of C13/C14. Updating and deleting one key in one block refuted."
  },
  {
   "property": "C16",
   "status": "partial",
   "theorems": [
    "C16_latest",
    "C16_get_at",
    "C16_prune_keeps_latest",
    "C16_rollback_partial",
    "C16_revert_one_block_refuted",
    "C16_rollback_after_restart_refuted",
    "C16_multi_get_latest_partial",
    "C16_multi_get_latest_refuted"
   ],
   "note": "All histories with crashes and rollbacks of one sequence number; rollback needs the snapshot of the previous sequence number (refuted after a clean restart). Multi-reads of immutable keys only for adjacent equal versions (refuted otherwise)."
  },
  {
   "property": "C17",
   "status": "partial",
   "theorems": [
    "C17_collision_free",
    "C17_order_preserving",
    "C17_leaf_latest",
    "C17_nonprovable_latest",
    "C17_last_block",
    "C17_first_block",
    "C17_latest_state_transfer_block",
    "C17_stale_scan",
    "C17_stale_nonprovable_scan",
    "C17_internal_scan",
    "C17_nonprovable_mixed_lengths_refuted",
    "C17_v1_comparator",
    "C17_v1_transitive"
   ],
   "note": "v1 and v2 database keys (merkle tree, metadata, state transfer, reserved pages, stale index, non-provable) with the searches of the Merkle DB adapter; S3 keys, migration keys and the decimal block names of the object store are not modelled."
  },
  {
   "property": "C18",
   "status": "proved",
   "theorems": [
    "C18_round_trip",
    "C18_prefix_free",
    "C18_truncated_refused",
    "C18_any_input",
    "C18_canonical_partial",
    "C18_map_malleable_refuted",
    "C18_bool_list_malleable_refuted",
    "C18_trailing_bytes_refuted",
    "C18_not_fresh_refuted",
    "C18_enum_256_refuted"
   ],
   "note": "All types of the message language, all values and inputs. Non-canonical inputs (map order, repeated keys, bool lists), trailing bytes, decoding into a non-empty object and 256-tag enums are shown as limits."
  },
  {
   "property": "C19",
   "status": "partial",
   "theorems": [
    "C19_elements",
    "C19_elements_inside",
    "C19_complaints_partial",
    "C19_one_complaint",
    "C19_roundtrip",
    "C19_signature_check_inside_partial",
    "C19_complaint_overrun_refuted",
    "C19_digest_reads_outside_refuted",
    "C19_digest_covers",
    "C19_digest_binds_complaints_refuted",
    "C19_signature_check_inside_refuted",
    "C19_other_signature_length_refuted"
   ],
   "note": "Proved of the bytes, for every message below 2 GB: the elements of an accepted message are exactly as announced, inside the signed part, increasing in the window, of earlier views, and the iterator meets no assertion; the same for the complaints if none overruns (nothing assumed for at most one); a correct replica's message is accepted and read back. Refuted: overrunning complaints are accepted depending on the memory behind the message and then abort the iterator; the digest reads an unchecked length and misses the end of the complaints; the signature check can be handed 4 GB; the complaints iterator uses the reader's own signature length."
  },
  {
   "property": "C20",
   "status": "partial",
   "theorems": [
    "C20_iterates",
    "C20_validation_aborts_only",
    "C20_requests_inside",
    "C20_built_accepted",
    "C20_digest_determines_unsigned",
    "C20_digest_determines_signed",
    "C20_equivocation_refuted",
    "C20_equivocation_signed_refuted",
    "C20_request_number_not_covered_refuted",
    "C20_request_of_self_aborts_refuted",
    "C20_header_outside_refuted",
    "C20_request_outside_refuted",
    "C20_correlation_id_outside_refuted"
   ],
   "note": "For every byte string followed by any memory: an accepted message is iterated over exactly numberOfRequests requests, none of the iterator's assertions fails, all start before the announced end, which is inside the message; if no announced size overflows 32 bits the requests tile the message. A primary's message is accepted and read back. Digest: determines all of unsigned requests, client and text of verified ones. Refuted: sizes that overflow (body or header read outside), correlation id length, a request naming the checking replica aborts it, and equivocation: the digest covers only the client signature, which is not checked with signing off or for requests marked pre-processed, so two messages with the same digest and different requests are both accepted."
  },
  {
   "property": "C21",
   "status": "partial",
   "theorems": [
    "C21_read_back",
    "C21_crash_prefix",
    "C21_prefix_is_history",
    "C21_synced_transactions_survive",
    "C21_nested_commit_with_outermost"
   ],
   "note": "Proved at byte level for every sequence of begin/set/end calls, nested up to 255 deep, with crashes at any point of the storage log: every getter returns the last value committed; after a crash and restart the content is the one after a prefix of the committed transactions, never shorter than the last synchronous one; a nested transaction commits with the outermost one. Hypotheses (values fit their buffers, depth, configuration) are each shown necessary: 256 nested levels commit early, a full commit proof over 1056 bytes or prepare/commit full over 2080 is written but can never be read back, a setter after restart aborts until a getter ran, the last specific-info ids are rejected. Not modelled: verifyPrevViewInfo and verifyLastNewViewMsgs assertions, getSeqNumWindow/getCheckWindow (tests only), key-file removal at start, a configuration that changes between starts."
  },
  {
   "property": "C22",
   "status": "proved",
   "theorems": [
    "C22_target_reported",
    "C22_target_correct",
    "C22_target_not_old",
    "C22_no_abort",
    "C22_progress",
    "C22_read_only_abort_refuted",
    "C22_progress_f0_refuted"
   ],
   "note": "Target always reported by f+1 distinct consensus replicas in answer to a request of the current cycle; no abort from consensus replicas; progress. Refuted side claims: a read-only replica can make the process abort, one report is not enough with f = 0."
  },
  {
   "property": "C23",
   "status": "partial",
   "theorems": [
    "C23_never_asserts",
    "C23_history_independent",
    "C23_removing_all_empties",
    "C23_root_value",
    "C23_height_unique",
    "C23_group_value",
    "C23_gaps_refused",
    "C23_group_check_sound_partial",
    "C23_group_check_exact",
    "C23_true_digests_accepted",
    "C23_one_wrong_digest_needs_collision",
    "C23_group_check_no_abort",
    "C23_group_check_survives_any_data_refuted",
    "C23_span_check",
    "C23_accepted_tree_spans_collection_refuted"
   ],
   "note": "Proved for the whole tree algorithm (all levels, any K>=2, any hash): no assertion fails on any history, the tree depends only on the blocks in range, closed formulas for the root and group values, gaps refused. For the check of received digests: accepted digests are for exactly the requested group and have the right sum (only the sum is compared; single wrong digest needs a collision). Refuted: block id 0 in received data aborts; the span check accepts a tree that ends before the blocks to collect. Not modelled: serialization of the tree, validate(), storing accepted digests, pruned digests, 56-bit index overflow."
  },
  {
   "property": "C24",
   "status": "partial",
   "theorems": [
    "C24_complete",
    "C24_cancel_justified",
    "C24_decides",
    "C24_backup_accepts",
    "C24_backup_result_correct",
    "C24_completed_message_validates",
    "C24_message_contents",
    "C24_unsigned_result_accepted_refuted",
    "C24_error_signatures_any_body_refuted",
    "C24_result_code_unsigned_refuted",
    "C24_forged_reports_refuted",
    "C24_cancelled_by_one_refuted",
    "C24_never_cancelled_refuted",
    "C24_error_consensus_rejected_refuted",
    "C24_error_data_shifted_refuted"
   ],
   "note": "Proved of the model of RequestProcessingState, PreProcessResultMsg and validatePreProcessedResults: a request completes only with f+1 distinct recorded reporters of one hash, if every replica reports once the request is always decided when all have answered and cancelled only if no hash can have f+1, an accepted well-formed result message carries f+1 distinct valid signatures (hence one of a correct replica) over its body, and what the primary completes with is accepted. Refuted (theorems *_refuted): a malformed signature block makes the parser throw inside the thread pool and the result counts as valid; error signatures cover no body; result codes are unsigned; reports can be forged with a status other than GOOD or in a batch; one replica reporting several hashes cancels requests or keeps them from being cancelled; consensus on an error differing from the primary's result yields a message others reject; the error text sent is shifted by 6 bytes."
  },
  {
   "property": "C25",
   "status": "proved",
   "theorems": [
    "C25_stamps_deterministic",
    "C25_strictly_increasing",
    "C25_reexecution_same_time",
    "C25_value",
    "C25_bounds",
    "C25_within_hard_limit",
    "C25_epsilon_zero_refuted",
    "C25_future_proposal_sticks"
   ],
   "note": "All proposal sequences and crash points (positive epsilon, no int64 overflow). Reserved-page writes are durable at once. epsilon = 0 is shown to break strictness. State transfer of the page is not modelled."
  },
  {
   "property": "C26",
   "status": "proved",
   "theorems": [
    "C26_buffer_order",
    "C26_lost_update_ends_reads",
    "C26_buffer_complete",
    "C26_stream_in_order",
    "C26_live_next",
    "C26_too_slow_ends",
    "C26_withheld_block_refuted",
    "C26_block_zero_refuted",
    "C26_newest_id_refuted",
    "C26_all_subscribers",
    "C26_subscribed",
    "C26_unsubscribed"
   ],
   "note": "All interleavings of pushes and reads on one buffer; also the whole legacy-event subscription (catch-up from storage, gap, overlap, live) interleaved with a replica that stores, announces and prunes blocks. Limits shown: blocks never announced in the live phase leave a gap; request for block 0 on an empty chain aborts; newestBlockId after a loss. Event-group streams use the same buffer code but their sync loop is not modelled."
  },
  {
   "property": "C27",
   "status": "partial",
   "theorems": [
    "C27_signed_text_ambiguous_refuted",
    "C27_signature_names_block",
    "C27_request_accepted_iff",
    "C27_prune_safe",
    "C27_prune_exact",
    "C27_prune_no_crash",
    "C27_status",
    "C27_empty_chain_refuted",
    "C27_keep_zero_refuted",
    "C27_old_answers_safe"
   ],
   "note": "Safety proved for every execution with any Byzantine replicas: accepted requests are exactly those with one valid signature of every replica; every deleted block was offered by all of them; the configured number and the last block stay; no crash when the chain is non-empty. Refuted for an empty chain and for the categorized storage with keep 0. Signatures are ideal."
  },
  {
   "property": "C28",
   "status": "proved",
   "theorems": [
    "C28_bounded",
    "C28_value",
    "C28_survives",
    "C28_put_get",
    "C28_evicts_least_recently_used",
    "C28_get_drops_nothing",
    "C28_capacity_zero_refuted",
    "C28_pool_conserved",
    "C28_pool_alloc",
    "C28_pool_free"
   ],
   "note": "All operation histories of the LRU cache with positive capacity (capacity 0 refuted: reads the back of an empty list) and of SimpleMemoryPool. The hash map is an association list."
  },
  {
   "property": "C29",
   "status": "proved",
   "theorems": [
    "C29_strictly_increasing",
    "C29_unique",
    "C29_restart",
    "C29_late_clock_refuted",
    "C29_restart_clock_back_refuted"
   ],
   "note": "All clock behaviours between 1970 and 2109 (2^42 ms; later clocks refuted), also across restarts with a later clock (refuted for a clock that went back)."
  },
  {
   "property": "C30",
   "status": "partial",
   "theorems": [
    "C30_runs_exactly_when_due",
    "C30_no_time_no_run",
    "C30_replicas_agree",
    "C30_period_respected",
    "C30_persist_first_refuted",
    "C30_state_transfer_refuted"
   ],
   "note": "All tables and tick histories, restarts if the persist entry is last (refuted otherwise). A state transfer is refuted: the schedule is not reloaded. Tables do not change while running."
  },
  {
   "property": "C31",
   "status": "proved",
   "theorems": [
    "C31_collectors"
   ],
   "note": "All f+c>=1, views, sequence numbers."
  },
  {
   "property": "C32",
   "status": "partial",
   "theorems": [
    "C32_load_returns_last_saved",
    "C32_cleanup_keeps",
    "C32_accepted_pages_correct",
    "C32_accepted_descriptor",
    "C32_correct_source_accepted",
    "C32_page_id_unchecked_refuted",
    "C32_redundant_page_abort_refuted",
    "C32_refetch_keeps_digest_refuted"
   ],
   "note": "Proved at byte level: load returns the last value saved; clean-up keeps every visible page; accepted and applied pages equal the attested ones (no collisions among the strings hashed), with a consistent store and the attested descriptor when the target is newer; a correct source is accepted. Refuted: page ids are not bounded (write outside the descriptor), a redundant page of the last checkpoint aborts the destination, re-fetching the last checkpoint keeps a stale digest. Missing: the persistent copy."
  },
  {
   "property": "C33",
   "status": "partial",
   "theorems": [
    "C33_put_blocks_are_the_chain",
    "C33_all_blocks_stored",
    "C33_first_required_persistent",
    "C33_loop_ends",
    "C33_batch_end",
    "C33_honest_batch_partial",
    "C33_two_chunk_first_block_refuted",
    "C33_honest_abort_refuted",
    "C33_honest_overrun_refuted",
    "C33_malicious_abort_refuted",
    "C33_malicious_overrun_refuted",
    "C33_leftover_chunk_refuted",
    "C33_out_of_order_refuted",
    "C33_assembly_without_digests"
   ],
   "note": "Proved for every event sequence with crashes: every block written is the chain's or one of them is a collision; below the persistent first required block everything is stored; at the end all blocks are; each batch ends at a block that can be checked on its own; the loop ends; a correct source completes a batch delivered in order if its first block fits in one chunk when digests are sent. The RVB manager is abstract. Refuted: a correct source with a two-chunk first block and digests is blamed or aborts the destination; digests and a maximal block overrun the buffer; out-of-order delivery blames a correct source or underflows; a malicious source can abort the process, overrun the buffer or advance an end iterator."
  },
  {
   "property": "C34",
   "status": "partial",
   "theorems": [
    "C34_verify_exact",
    "C34_different_signers_partial",
    "C34_one_signer_suffices_refuted",
    "C34_two_certificates_refuted",
    "C34_combined_sound",
    "C34_job_exact",
    "C34_signed_shares_combine",
    "C34_wrong_length_aborts_refuted",
    "C34_share_out_of_bounds_refuted",
    "C34_blames_the_innocent_refuted"
   ],
   "note": "Proved at byte level for any signature scheme: what verify accepts, exactly; a certificate combined by a collector always has threshold different signers (full for combined certificates); for received certificates only when no signer is listed twice. Refuted: verify counts a repeated share each time, so one faulty signer satisfies any threshold and certifies two digests; a share or certificate of an unexpected length aborts the process; a share numbered n+1 is read outside the key vector; a faulty replica can make a correct one be blamed and its valid share dropped. With one share per signer the job never aborts, succeeds exactly when threshold shares are valid and otherwise blames exactly the senders of invalid ones."
  },
  {
   "property": "C35",
   "status": "partial",
   "theorems": [
    "C35_updates_in_order",
    "C35_how_it_ends",
    "C35_progress",
    "C35_hash_binding",
    "C35_hash_order_independent",
    "C35_kind_confusion_refuted",
    "C35_unhashed_fields_refuted",
    "C35_one_faulty_server_ends_it_refuted"
   ],
   "note": "Proved for any hash function, any number of servers, any answers of up to f faulty ones and any pattern of timeouts and failures: the updates handed over are those of the chain in order without gaps; no internal error; out-of-range and not-found only if an honest server says so; every iteration makes progress when the honest servers answer. Hypotheses: what faulty servers send does not collide with hashed strings, and does not have the other kind with the same hash; the second is shown necessary: the client does not check the kind when it moves the data stream, so one faulty server can turn an empty block into an event group and make the client skip blocks. Refuted: record time, correlation id and order are not covered by the hash; one faulty server can end the subscription or the process with a malformed message. Not modelled: the initial state (ReadState), snapshots, the update queue, the stop flag."
  },
  {
   "property": "C36",
   "status": "partial",
   "theorems": [
    "C36_replicas_agree",
    "C36_takes_effect_partial",
    "C36_histories_agree_partial",
    "C36_after_restart",
    "C36_changes_only_later",
    "C36_signs_with_its_key",
    "C36_number_of_exchanges",
    "C36_swapped_exchanges_refuted",
    "C36_restart_signs_with_old_key_refuted",
    "C36_crash_loses_the_private_key_refuted",
    "C36_lost_key_changes_verification_key_refuted",
    "C36_wrapped_number_refuted",
    "C36_anyone_replaces_any_key_refuted",
    "C36_in_progress_keys_change_refuted",
    "C36_one_more_exchange_stops_all_refuted"
   ],
   "note": "Proved: replicas that executed the same exchanges and did not restart agree on every verification key, in any order of exchanges; executing an exchange never changes keys of executed numbers (numbers below 2^63); a running replica signs with the key that belongs to its verification key; and, when exchanges are executed in the order of their checkpoints, all histories with restarts, crashes inside a message and state transfers give the specified keys. The key signed with after a restart is characterised exactly. The rest of the statement is false of the code, each shown by a theorem: exchanges in another order take effect too early or are undone and a restart changes the keys; after a restart a replica signs with its initial key as soon as another replica's later exchange takes effect; a crash between page and key file loses the private key and can change its own verification key; a number above 2^63 changes past keys; the sender is not checked; numbers in progress can change keys; after as many exchanges as fit a page every replica stops. Not modelled: TLS and client keys, the initial-exchange quorum, epochs that change."
  },
  {
   "property": "C37",
   "status": "partial",
   "theorems": [
    "C37_keys_distinct",
    "C37_tables_exist",
    "C37_range",
    "C37_find",
    "C37_read_in_order",
    "C37_read_refused",
    "C37_only_readable",
    "C37_hash_of_data",
    "C37_hash_covers",
    "C37_hash_any_order",
    "C37_data_stream",
    "C37_hash_stream",
    "C37_request",
    "C37_blocks",
    "C37_blocks_refused",
    "C37_added_while_reading_refuted",
    "C37_same_id_twice_refuted",
    "C37_undecodable_shifts_ids_refuted",
    "C37_equal_events_refuted",
    "C37_time_not_hashed_refuted"
   ],
   "note": "Proved for every history of public, private and unrelated groups, any pruning point and any request in range: the tag tables' keys never clash; the readable ids are oldest..newest exactly; findGlobalEventGroupId returns the group of the requested id and its two table positions; reading delivers the visible groups in order, numbered consecutively, each with exactly the visible events; requests outside are refused; only readable events are sent; the hash of a group covers its id and the multiset of its visible events and not their order; the data and hash streams continue from the history through the gap to live updates. Refuted, each by a theorem: a public group written while the history is read stops the process; groups stored between the range and the end of the reading make two groups get one id; an undecodable group shifts later ids; two equal events in a group stop the hashing; the record time is not hashed. Not modelled: the writer of the tables (not in the repository; specified by what the repository's own tests write), protobuf parsing and SHA-256 (parameters), the queue between reader and sender, cancellation."
  },
  {
   "property": "C38",
   "status": "partial",
   "theorems": [
    "C38_point",
    "C38_none_beyond",
    "C38_stopped_at_stop_point",
    "C38_stops",
    "C38_same_point",
    "C38_goes_on_before",
    "C38_restart",
    "C38_same_stop_point",
    "C38_install_forgotten_refuted",
    "C38_old_install_refuted",
    "C38_transfer_forgets_refuted",
    "C38_pruned_order_refuted",
    "C38_crash_new_epoch_refuted",
    "C38_postponed_refuted",
    "C38_proof_signed",
    "C38_collected",
    "C38_forged_proof_refuted",
    "C38_repeated_signer_refuted",
    "C38_restart_condition",
    "C38_other_number_refuted"
   ],
   "note": "Proved for all agreed logs without install commands, any number of replicas and any interleaving of accepting, executing, stabilising, restarting, letting go on and state transfer (excluding the refuted cases): the stop point is the second checkpoint after the order; nobody accepts or executes beyond it before being let go on there; a replica stops exactly there; replicas stopped in one epoch are at one number; before it nothing is refused; a restart changes nothing; replicas at one number and epoch have one stop point. Restart proofs: every element of another replica is signed and names the number; proofs made by correct replicas consist of different signers and are accepted. Refuted, each by a theorem: a restart forgets an install command; an old install comes back with a state transfer and blocks the replica; a state transfer into a new epoch ignores a stop ordered in it; a pruned order is forgotten by a restart; a crash while starting an epoch diverges the epochs; repeated orders postpone the stop for ever; a restart proof may repeat one signer, or the receiver itself without signature; its number is not compared with the stop point. Not modelled: callbacks other than the flags, removal of metadata (numbers start again), pruning in progress, asynchronous execution, agreement on the log (C02)."
  },
  {
   "property": "C39",
   "status": "partial",
   "theorems": [
    "C39_order_messages_inside",
    "C39_checkpoint_inside",
    "C39_status_inside",
    "C39_request_inside_partial",
    "C39_newview_inside_partial",
    "C39_others_inside_partial",
    "C39_acks_delivered",
    "C39_slow_and_missing_delivered",
    "C39_shares_delivered",
    "C39_partial_proofs_delivered",
    "C39_newviews_delivered",
    "C39_checkpoints_delivered",
    "C39_leave_and_ready_delivered",
    "C39_ready_proofs_delivered_partial",
    "C39_replies_delivered",
    "C39_requests_delivered",
    "C39_client_batches_delivered",
    "C39_preprocess_requests_delivered",
    "C39_preprocess_batches_delivered",
    "C39_preprocess_replies_delivered",
    "C39_reply_batches_delivered_partial",
    "C39_checkpoint_signed",
    "C39_leave_signed",
    "C39_ready_signed",
    "C39_request_signed",
    "C39_request_number_signed_refuted",
    "C39_preprocess_reply_signed",
    "C39_validation_inside_refuted",
    "C39_accepted_inside_refuted",
    "C39_reply_batches_delivered_refuted",
    "C39_preprocess_request_stops_refuted",
    "C39_ask_whole_refuted",
    "C39_ready_proof_epoch_refuted",
    "C39_ready_proofs_delivered_refuted",
    "C39_ready_proof_signers_refuted",
    "C39_client_inside_refuted",
    "C39_replies_received",
    "C39_accepted_roles"
   ],
   "note": "Proved for every byte string: checking and reading acknowledgements, start-slow, missing-data, share, full and partial commit proof, leave-view, checkpoint, question-for-checkpoint and status messages stays inside and stops nothing; with the stated lengths also requests, new-view, ready, reply, preprocess and state transfer messages (partial). Proved for all field values: what correct nodes make is accepted and read back, including batches of any size by induction and proofs that replicas are ready; clients read back replies. Accepted checkpoint, leave-view, ready, request and preprocess-reply messages carry a signature on bytes that determine their fields (for requests: only the data). Refuted, each by a concrete message: checking ready, ready-proof, new-view, reply, batch and state transfer messages reads outside; accepted requests, replies, batches, preprocess requests and replies have fields outside; a long correlation id overflows a reply taken from a batch; a signed preprocess request stops a replica whose clients do not sign; ready proofs of an earlier epoch or with one signer repeated are accepted and those of messages with a span context refused; a request's number is not signed; the client reads outside of a reply. PrePrepare and ViewChange messages are C20 and C19."
  },
  {
   "property": "C40",
   "status": "partial",
   "theorems": [
    "C40_client_in_one_place",
    "C40_batches_bounded",
    "C40_acknowledged_or_refused",
    "C40_answered_once_partial",
    "C40_waiting_is_watched_partial",
    "C40_no_crash_partial",
    "C40_stale_timer_refuted",
    "C40_forgotten_refuted",
    "C40_answered_twice_refuted",
    "C40_never_answered_refuted",
    "C40_equal_ids_refuted",
    "C40_no_timer_refuted"
   ],
   "note": "Proved for every run: each client is in exactly one place (free or one job), batches stay within the size; in any state a request is acknowledged or refused with one error whose reason holds, and is acknowledged whenever a free connected client can take it. Proved partially: answered exactly once with its own reply or an error (when an ended job's result is looked at before anything else happens, and correlation ids differ); waiting requests always have a job or a live timer (when clients stay connected); no crash (when the timer's thread is not delayed). Each condition is shown necessary by a concrete run: late timer handlers dereference a null client, the front of an empty queue or an empty batch; a client that loses its connections while requests wait loses its timer and the requests are forgotten; the client is free before its result is checked, so a request may be told of a timeout after its reply or never; equal correlation ids mix up replies; a zero timer waits for ever. Not modelled: metrics, the statistics, time-service and reconfiguration flags, the inside of the BFT client (its outcome is arbitrary)."
  },
  {
   "property": "C41",
   "status": "partial",
   "theorems": [
    "C41_nobody_forced_out",
    "C41_no_assertion_fails",
    "C41_views_go_up",
    "C41_restart",
    "C41_complaints_suffice",
    "C41_leaving_sends_proof",
    "C41_leaving_later_sends_proof",
    "C41_proof_moves_others",
    "C41_follows_quorum",
    "C41_active_views_are_backed",
    "C41_proof_never_ignored_refuted",
    "C41_newer_message_stays_refuted",
    "C41_restart_keeps_announcements_refuted"
   ],
   "note": "Proved for every run of a cluster of any size with at most f faulty replicas that send anything the signatures allow: nobody is forced beyond a view whose primary is correct and which no correct replica wants to leave; f+1 complaints in any order suffice to leave; the message sent then proves it, and takes along every correct replica that is behind, does not ignore it and has not itself f+1 complaints waiting, and it passes the proof on; f+1 requests are followed; active views are backed by 2f+2c+1 replicas; views go up except by a restart, which keeps the last active view; no assertion fails. Refuted, each by a concrete run: a new-view message of a faulty primary for a later view makes a replica ignore proofs for an earlier view of that primary; an older view-change message sent again replaces a newer one, so that support is lost; a restarted replica is in a view before one it has announced, with complaints that prove nothing. Not modelled: elements of view-change messages (C04, C19), timers, status messages that fetch missing messages, the primary's own new-view message kept."
  },
  {
   "property": "C42",
   "status": "partial",
   "theorems": [
    "C42_queue_size",
    "C42_proposals_good_partial",
    "C42_numbers_grow_partial",
    "C42_fifo_partial",
    "C42_once_partial",
    "C42_pending_proposed_partial",
    "C42_taken_from_queue",
    "C42_all_proposed",
    "C42_flush_empties",
    "C42_flush_first",
    "C42_idle_sends_at_once",
    "C42_batch_number",
    "C42_batch_size",
    "C42_pending_not_lost_refuted",
    "C42_fifo_refuted",
    "C42_proposals_good_refuted",
    "C42_space_refuted",
    "C42_flush_number_refuted"
   ],
   "note": "Proved for every run: the counted size of the queue is right; what an attempt takes from the queue is proposed in order, or cannot be processed, or the whole queue did not fit in one message; when the primary may send, the timer empties the queue and the first admissible request starts the next message; an idle primary with the self-adjusted policy sends at once; batches of the policies keep their limits. Without threads that finish messages (prePrepareFinalizeAsyncEnabled off), or as long as the replica does not leave its view: proposals are good, numbers grow, no request twice in a view (while replies stay recorded). Without threads also: first in, first out, and every request in process has been proposed. Refuted, each by a concrete run: with threads a message finished during a state transfer or pruning is dropped and its requests stay in process, so that the primary ignores them; batches are reordered; a message of an older view is sent in a later, not yet active one. A request that fits an empty message is dropped when the batch is full; the timer's batch may exceed the policy's number. Not modelled: read-only requests, other replicas' forwarding, the pre-processor, time and metrics."
  },
  {
   "property": "C43",
   "status": "partial",
   "theorems": [
    "C43_never_stuck",
    "C43_sources_valid",
    "C43_all_tried_partial",
    "C43_primary_avoided_partial",
    "C43_silent_replaced",
    "C43_answering_kept",
    "C43_useless_replaced_refuted",
    "C43_all_tried_refuted",
    "C43_one_message_refuted",
    "C43_primary_avoided_refuted"
   ],
   "note": "Proved for every sequence of events, any random choices and any configuration with two or more other replicas: there is always a preferred replica while fetching, no assertion about the source fails, only replicas of the cluster are chosen; a source from which nothing comes is replaced after one timeout more than the number of retransmissions; a source whose messages come within the timeout is kept; as long as the known primary stays the same, every replica but the primary is chosen after as many choices as there are preferred and other replicas, and the primary is not chosen if it was taken out of the preferred ones. Refuted, each by a concrete run: a source that sends something in time but never completes a block is kept for ever (with the replacement timeout at 0, its 'off' value); two faulty replicas that alternate as 'primary' (any replica's PrePrepare counts, PrePrepareMsg::validate does not ask whether the sender is the primary) keep all other replicas from ever being chosen; one message of a replica, after nine of another, makes it the known primary; the known primary stays preferred and is chosen when it was the only preferred one. Not modelled: the content of what is fetched (C33, C23), clocks that go back, metrics."
  },
  {
   "property": "C44",
   "status": "proved",
   "theorems": [
    "C44_external_fifo",
    "C44_internal_fifo",
    "C44_refused_full",
    "C44_internal_first",
    "C44_served",
    "C44_handled",
    "C44_lengths",
    "C44_arrival_order_refuted",
    "C44_handled_before_stop_refuted"
   ],
   "note": "For every interleaving: the accepted external messages are those taken, in order, followed by at most twice the queue size that wait; internal messages likewise; a push is refused only when the queue is full of messages not taken, and leaves no trace; no external message overtakes an internal one pushed before it was accepted; whatever is pushed, every accepted message is taken after a bounded number of turns; what is taken goes to its handler and its callback runs; lengths from the network are checked. Shown not to hold: handling in order of arrival (internal messages overtake, and wait for the external ones taken with them), and handling of all accepted messages before a stop. Assumed: pushes and the taking of the queues are atomic (they hold the lock)."
  },
  {
   "property": "C45",
   "status": "partial",
   "theorems": [
    "C45_no_harm",
    "C45_handles_new",
    "C45_schedule",
    "C45_reset",
    "C45_cancelled",
    "C45_order",
    "C45_add_in_callback_refuted",
    "C45_cancel_in_callback_refuted",
    "C45_rearm_refuted",
    "C45_no_drift_refuted"
   ],
   "note": "For every sequence of operations and looks: a timer goes off exactly at the times the specification gives (a new one, a reset one, recurring or not), as long as callbacks do not cancel timers and the vector does not move during a look; cancelled timers never go off again whatever callbacks do; handles are new; the order in a look; callbacks that only reset are harmless. Refuted, each by a concrete run: a callback that adds a timer can make the vector move while it is iterated (state transfer's timer callback does so if it does not run in its own thread), one that cancels its own timer makes the next be passed over and the loop run beyond the end; a one-shot timer armed again by its callback is lost; a recurring timer drifts."
  },
  {
   "property": "C46",
   "status": "partial",
   "theorems": [
    "C46_last_kept_partial",
    "C46_stored",
    "C46_survives_restart_refuted",
    "C46_restart_safe_refuted",
    "C46_index_after_restart_refuted",
    "C46_saved_right_refuted",
    "C46_resent_refuted"
   ],
   "note": "Proved for every sequence of saves by any clients without a restart: the information of a request is the last one saved for it among the last ones of its client; each of these is in the storage and can be read back in full by a correct decoder. Refuted: after a restart all is lost, for every history (the data is copied into an empty string, whose length stays 0), and longer data overwrites memory; with that corrected the first save after a restart replaces the newest stored entry, not the oldest; what is saved starts a header's length too late in the buffer; a reply with information cannot be sent again, as the assertion about its length always fails."
  },
  {
   "property": "C47",
   "status": "partial",
   "theorems": [
    "C47_list_survives_restart",
    "C47_listed_is_usable_partial",
    "C47_listed_is_usable_if_stored_first",
    "C47_listed_is_usable_refuted",
    "C47_no_forgotten_directory",
    "C47_number_partial",
    "C47_number_after_creation",
    "C47_number_refuted",
    "C47_oldest_is_removed",
    "C47_never_waits_for_itself_partial",
    "C47_last_created_partial",
    "C47_never_waits_for_itself_refuted",
    "C47_last_created_refuted",
    "C47_sequence_number_grows_refuted",
    "C47_pending_is_worked_at_partial",
    "C47_pending_is_worked_at_refuted",
    "C47_metadata_fits_partial",
    "C47_metadata_fits_refuted",
    "C47_next_window_end"
   ],
   "note": "Proved for all interleavings of requests, creations, failures, removals and crashes: the stored list and the one in memory agree at rest, so that created snapshots are still created after a restart; no directory is left unlisted; a creation that ends leaves at most the configured number, each restart adds at most one to it, and the disk never holds more than two more; only the lowest is taken off the list; a request waits for the end of the window. Under stated conditions: a listed snapshot is complete (no crash in the middle of a removal, or, with any crash, if the list were stored before the directory is deleted); no thread waits for itself and the last created snapshot exists and is the highest (requests with growing block numbers, served in turn); a pending one is worked at (no failure). Refuted, each by a concrete run: a crash during a removal leaves a listed snapshot without directory; crashes make the list as long as one likes; two requests served in the other order make a creation wait for its own end, with its lock held, or leave a removed snapshot as the last created one, or the last sequence number lower; a failed creation stays pending and blocks its number until a restart; the list fits its place up to 40 snapshots, while 100 may be configured."
  },
  {
   "property": "C48",
   "status": "partial",
   "theorems": [
    "C48_transfer_is_justified",
    "C48_transfer_starts",
    "C48_old_ignored",
    "C48_memory_bounded_refuted",
    "C48_descriptor_is_certified_refuted"
   ],
   "note": "Proved for all sequences of events, all f > 0 and c: every stored descriptor, and so every start of a transfer, is justified by at least f+c+1 replicas outside any set of f faulty ones, which sent stable checkpoints with that number and the same digests and block; a transfer has started once 2f+c+1 replicas that do not contradict themselves have sent an equal stable checkpoint above the replica's own, whatever was received before; after a transfer, messages for that checkpoint or earlier ones change nothing; no dereference of a missing class or message. Refuted: a single faulty replica makes the map of certificates as large as it likes, with valid messages for ever new numbers; the stored descriptor also holds the differing message of a faulty replica (and its block number may name the stored object)."
  },
  {
   "property": "C49",
   "status": "partial",
   "theorems": [
    "C49_equal_iff",
    "C49_bound_partial",
    "C49_bound_refuted",
    "C49_colliding_digests",
    "C49_other_digest"
   ],
   "note": "An exact characterisation, for every digest: with different locations (bits 0 and 8 of its first word differ) the signed digest determines view and sequence number; with equal locations exactly their exclusive or. So shares are bound to the sequence number within a view and to the view at a sequence number, for every digest; signed digests of different digests agree only if these agree in their last 16 bytes. Refuted, for all digests with equal bits 0 and 8 and for all views and numbers: changing both by the same exclusive or gives the same signed digest, so that a certificate for a batch at one view and number is one for the same batch at others (the digest of a PrePrepare covers its requests only)."
  },
  {
   "property": "C50",
   "status": "partial",
   "theorems": [
    "C50_one_class_each",
    "C50_one_class_each_refuted",
    "C50_operator_is_no_replica_refuted",
    "C50_collectors",
    "C50_all_collect"
   ],
   "note": "Proved for every configuration with an operator (which counts as an external client): the six classes partition the valid ids; and for every f, c, view and sequence number: collectors are distinct replicas other than the primary, one or two, and with c = 0 each other replica collects among any n consecutive numbers. Refuted for every configuration without an operator: the set of external clients also takes the id before the first internal client, which is the last client service if there is one, and the last replica if there are no clients, proxies, services or read-only replicas; and the id of the operator is then 0, that of a replica."
  }
 ]
}