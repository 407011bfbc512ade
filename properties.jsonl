{"id": "C01", "title": "Quorum sizes guarantee intersection in a correct replica", "statement": "For a cluster configured with fault parameters f and c (n = 3f+2c+1 replicas), any two slow-path certificates, any slow-path certificate and any fast-path certificate, and any commit/prepare certificate and any view-change quorum have a correct replica in common when at most f replicas are faulty; a view-change quorum meets a fast-path quorum in at least f+c+1 correct replicas; every quorum can be formed by correct replicas alone as required by its path.", "quantifier": "all f, c and all choices of signer sets and faulty sets", "why_tests_cant": "tests use a handful of (f,c) and of signer sets; safety needs every one", "anchors": ["bftengine/src/bftengine/ReplicasInfo.cpp", "bftengine/include/bftengine/CryptoManager.hpp", "bftengine/src/bftengine/ViewsManager.cpp"]}
{"id": "C02", "title": "No two requests are committed at one sequence number within a view", "statement": "If correct replicas obtain commit proofs (slow path, fast path with threshold, or optimistic fast path, in any combination) for the same view and sequence number, the proofs are for the same batch of requests.", "quantifier": "all message schedules, all Byzantine behaviours of at most f replicas, all f and c", "why_tests_cant": "the space of interleavings and adversarial messages is infinite", "anchors": ["bftengine/src/bftengine/ReplicaImp.cpp: onMessage<PrePrepareMsg>, sendPreparePartial, sendCommitPartial, sendPartialProof", "bftengine/src/bftengine/SeqNumInfo.cpp"]}
{"id": "C03", "title": "A committed batch survives every view change", "statement": "If a non-null batch is committed at a sequence number in some view, no different batch is ever committed at that sequence number in a later view, by any correct replica.", "quantifier": "all schedules, all numbers of view changes, all Byzantine behaviours of at most f replicas", "why_tests_cant": "needs an inductive argument over unboundedly many view changes", "anchors": ["bftengine/src/bftengine/ViewChangeSafetyLogic.cpp: calcLBStableForView, computeRestrictions", "bftengine/src/bftengine/ViewsManager.cpp: exitFromCurrentView, tryToEnterView", "bftengine/src/bftengine/ReplicaImp.cpp: MoveToHigherView, onNewView"]}
{"id": "C04", "title": "View-change restrictions are a function of the set of view-change messages", "statement": "The restrictions a replica computes for a new view from a quorum of view-change messages equal, for every sequence number in the window, the digest prescribed by the protocol rule (the highest valid prepared certificate, overridden by f+c+1 matching votes from later views), independently of the order of messages; each message's elements are consumed exactly once.", "quantifier": "all quorums of well-formed view-change messages, all windows, all seqence numbers", "why_tests_cant": "the computation walks many iterators in lock-step; tests try only few shapes", "anchors": ["bftengine/src/bftengine/ViewChangeSafetyLogic.cpp: computeRestrictions, computeRestrictionsForSeqNum", "bftengine/src/bftengine/messages/ViewChangeMsg.cpp: ElementsIterator"]}
{"id": "C05", "title": "The stable lower bound of a new view is backed by a correct replica", "statement": "The lower bound on stable sequence numbers used for a new view never exceeds the last stable sequence number reported by some correct replica in the quorum, and at least f+1 replicas of the quorum report a value at least as high.", "quantifier": "all quorums, all reported values of faulty replicas", "why_tests_cant": "depends on order statistics of adversarial values", "anchors": ["bftengine/src/bftengine/ViewChangeSafetyLogic.cpp: calcLBStableForView"]}
{"id": "C06", "title": "A view number is adopted only with support of a correct replica", "statement": "The view a replica moves to because of received view-change messages is at most the view requested by some correct replica, and it is agreed only if 2f+2c+1 replicas ask for that view or a higher one.", "quantifier": "all sets of received view-change messages", "why_tests_cant": "adversarial inputs", "anchors": ["bftengine/src/bftengine/ViewsManager.cpp: computeCorrectRelevantViewNumbers"]}
{"id": "C07", "title": "The active window holds exactly the items of the current range", "statement": "A bounded window of per-sequence-number items behaves as a map from the sequence numbers in the current window to items: reading returns what was last stored for that very number, advancing the window resets exactly the numbers that enter it, and preserves the others; numbers outside of the window are rejected.", "quantifier": "all window sizes, resolutions and all sequences of get/reset/advance operations", "why_tests_cant": "aliasing in the ring buffer depends on unbounded histories of advances", "anchors": ["bftengine/src/bftengine/SequenceWithActiveWindow.hpp"]}
{"id": "C08", "title": "Client requests execute at most once", "statement": "For each client, a request whose reply is already recorded or that is already pending is never accepted again; the saved reply is the one returned for a retransmission; the number of remembered replies per client never exceeds the configured limit, a reply is only forgotten when one for the same batch position is recorded, restarts forget nothing, and no request is executed twice.", "quantifier": "all sequences of add/execute/remove/reload operations for all clients", "why_tests_cant": "long histories with batches and evictions", "anchors": ["bftengine/src/bftengine/ClientsManager.cpp"]}
{"id": "C09", "title": "A client accepts a result only with a quorum of matching replies", "statement": "A client returns a reply only if at least the required number of distinct replicas of the destination quorum sent the same result, sequence number and primary; with f+1 matching the result comes from a correct replica; two different results can never both be accepted for byzantine-safe quorum over the same replies.", "quantifier": "all sequences of replies, including duplicates and equivocation", "why_tests_cant": "adversarial reply orders", "anchors": ["client/bftclient/src/matcher.cpp", "client/bftclient/src/quorums.cpp"]}
{"id": "C10", "title": "A combined signature is only accepted after verification and from distinct signers", "statement": "A signature collector reports completion only if the combined signature was verified against the expected digest; shares are counted at most once per replica; a share found to be bad is dropped and never resubmitted; late results for another view or sequence number are ignored.", "quantifier": "all interleavings of shares, combined signatures, background completions and resets", "why_tests_cant": "asynchronous completion order is scheduler dependent", "anchors": ["bftengine/src/bftengine/CollectorOfThresholdSignatures.hpp"]}
{"id": "C11", "title": "Message certificates count each replica once and become complete only on agreement", "statement": "A certificate over messages from replicas completes exactly when the required number of distinct replicas sent equivalent messages (or the local message agrees with that many), never counts one replica twice, and never becomes inconsistent silently.", "quantifier": "all sequences of added messages", "why_tests_cant": "adversarial message orders", "anchors": ["bftengine/src/bftengine/messages/MsgsCertificate.hpp", "bftengine/src/bcstatetransfer/MsgsCertificate.hpp"]}
{"id": "C12", "title": "The authenticated key-value tree is a map", "statement": "After any sequence of block updates (puts and deletes), the sparse Merkle tree's root hash depends only on the resulting set of key-value hashes: it equals the hash of the canonical tree for this set; lookups in storage through the tree return the current values; deleted and stale nodes are reported exactly.", "quantifier": "all sequences of batches of updates and deletes, all keys", "why_tests_cant": "the tree's shape depends on all key prefixes; tests cover few collisions", "anchors": ["kvbc/src/sparse_merkle/tree.cpp", "kvbc/src/sparse_merkle/internal_node.cpp", "kvbc/src/sparse_merkle/walker.cpp"]}
{"id": "C13", "title": "Versioned reads return the latest write at or before the version", "statement": "In a versioned category, reading a key's latest value returns the value of the last block that wrote it (or nothing if it was deleted last), reading at a block returns exactly what this block wrote, also after any number of prunings of old blocks and reversals of last blocks.", "quantifier": "all histories of add block, delete genesis block, delete last block", "why_tests_cant": "state depends on unbounded histories", "anchors": ["kvbc/src/categorization/versioned_kv_category.cpp"]}
{"id": "C14", "title": "Immutable category: keys are written once and tags hash exactly their updates", "statement": "In an immutable category every key maps to the value of the block that last wrote it, the per-tag root hash is the hash of exactly the tagged updates in key order, and deleting a block removes exactly its keys.", "quantifier": "all histories", "why_tests_cant": "unbounded histories", "anchors": ["kvbc/src/categorization/immutable_kv_category.cpp"]}
{"id": "C15", "title": "The block chain is contiguous and hash-linked", "statement": "Blocks are numbered consecutively between the genesis and last reachable block, each block stores the digest of its predecessor, deleting is only possible at the ends, and blocks arriving by state transfer in any order become reachable exactly when the gap is closed.", "quantifier": "all sequences of add/delete/state-transfer operations", "why_tests_cant": "unbounded histories, arbitrary order of received blocks", "anchors": ["kvbc/src/categorization/kv_blockchain.cpp", "kvbc/src/v4blockchain/v4_blockchain.cpp", "kvbc/src/v4blockchain/detail/blockchain.cpp", "kvbc/src/v4blockchain/detail/st_chain.cpp"]}
{"id": "C16", "title": "Latest-keys storage with rollback", "statement": "In the v4 block chain a latest read returns the value and block of the newest write of the key (nothing if it was deleted), a read at a block returns what this block wrote, reading many keys agrees with reading them one by one, rolling back the blocks of an unfinished sequence number after a crash restores every key to its previous value, and trimming history changes no latest value.", "quantifier": "all histories of writes, deletes, reverts and trims", "why_tests_cant": "unbounded histories", "anchors": ["kvbc/src/v4blockchain/detail/latest_keys.cpp", "kvbc/src/v4blockchain/v4_blockchain.cpp:getLatest,multiGetLatest,deleteLastReachableBlock,storeLastReachableRevertBatch"]}
{"id": "C17", "title": "Storage keys are order preserving and collision free", "statement": "Keys built from categories, block numbers, versions and user keys are injective and compare lexicographically in the same order as their numeric components, so range scans by prefix and reverse seeks return exactly the intended entries.", "quantifier": "all keys and versions", "why_tests_cant": "byte-level order over the full integer range", "anchors": ["kvbc/src/merkle_tree_key_manipulator.cpp", "kvbc/include/categorization/details.h", "kvbc/include/v4blockchain/detail/blockchain.h", "storage/src/direct_kv_key_manipulator.cpp"]}
{"id": "C18", "title": "Serialized values are decoded to themselves", "statement": "Integers, strings, byte arrays, containers, optionals and variants encoded by the message framework decode to the same value and leave the rest of the buffer; truncated buffers are rejected rather than over-read.", "quantifier": "all values of all supported types, all buffers", "why_tests_cant": "infinite input space", "anchors": ["messages/compiler/cpp/serialize.cpp", "libs/util/serializable.hpp"]}
{"id": "C19", "title": "A view-change message that passes validation can be iterated safely", "statement": "For every byte string accepted by validation, iterating over its elements and complaints never reads outside the message, visits exactly the announced number of elements, in strictly increasing sequence numbers within the window.", "quantifier": "all byte strings", "why_tests_cant": "infinite adversarial input", "anchors": ["bftengine/src/bftengine/messages/ViewChangeMsg.cpp"]}
{"id": "C20", "title": "A pre-prepare message that passes validation can be iterated safely", "statement": "For every byte string accepted by validation the request iterator visits exactly the announced number of requests, staying inside the message, and the digest covers exactly these requests.", "quantifier": "all byte strings", "why_tests_cant": "infinite adversarial input", "anchors": ["bftengine/src/bftengine/messages/PrePrepareMsg.cpp"]}
{"id": "C21", "title": "Consensus metadata survives crashes atomically", "statement": "After a crash at any point, the persisted consensus metadata read back at restart equal those after some completed prefix of write transactions; nested transactions commit only with the outermost one.", "quantifier": "all sequences of writes, all crash points", "why_tests_cant": "crash points cannot be enumerated by unit tests", "anchors": ["bftengine/src/bftengine/PersistentStorageImp.cpp", "bftengine/src/bftengine/DbMetadataStorage.cpp"]}
{"id": "C22", "title": "State-transfer target is agreed by a correct replica", "statement": "A replica only starts fetching state for a checkpoint summary reported identically by f+1 distinct replicas.", "quantifier": "all sequences of checkpoint summaries", "why_tests_cant": "adversarial messages", "anchors": ["bftengine/src/bcstatetransfer/BCStateTran.cpp"]}
{"id": "C23", "title": "The range validation tree's root summarises exactly the blocks in the range", "statement": "The root value of the tree after any sequence of adding and removing range-validation blocks depends only on the first and last block in range and their digests; a block's removal undoes its addition.", "quantifier": "all sequences of additions on the right and removals on the left", "why_tests_cant": "unbounded trees and wraparound arithmetic", "anchors": ["bftengine/src/bcstatetransfer/RangeValidationTree.cpp"]}
{"id": "C24", "title": "Pre-processing results are accepted only with f+1 equal hashes", "statement": "The primary completes pre-processing of a request only if at least f+1 distinct replicas reported the same result hash (equal to its own where required); it cancels when this is no longer possible.", "quantifier": "all reply sequences", "why_tests_cant": "adversarial replies", "anchors": ["bftengine/src/preprocessor/RequestProcessingState.cpp"]}
{"id": "C25", "title": "Time service is monotonic", "statement": "With a positive configured epsilon, the timestamps assigned to consecutive executed batches strictly increase whatever times the primaries propose and whenever a replica crashes: a batch gets the proposed time if that is later than the previous batch's, and the previous time plus epsilon otherwise; re-executing a batch after a crash gives it the same time.", "quantifier": "all sequences of proposed times", "why_tests_cant": "unbounded histories", "anchors": ["bftengine/src/bftengine/TimeServiceManager.hpp"]}
{"id": "C26", "title": "Subscribers receive updates in order without gaps or the subscription ends", "statement": "A subscriber's buffer delivers the pushed updates in order and, if an update cannot be stored because the buffer is full, every later read fails until the subscription is reset, so that no update is silently skipped.", "quantifier": "all interleavings of pushes and pops", "why_tests_cant": "schedules", "anchors": ["thin-replica-server/include/thin-replica-server/subscription_buffer.hpp"]}
{"id": "C27", "title": "Pruning never removes blocks needed by agreement", "statement": "The block up to which a replica prunes is at most the minimum of what all replicas signed as prunable, keeps the configured number of blocks and never goes past the last block.", "quantifier": "all configurations and messages", "why_tests_cant": "adversarial inputs", "anchors": ["kvbc/src/pruning_handler.cpp"]}
{"id": "C28", "title": "Bounded caches and pools respect their limits", "statement": "An LRU cache of positive capacity never holds more than its capacity, returns the last value put for a key unless evicted, keeps a key as long as fewer than capacity other keys were used since, and evicts the least recently used entry; a memory pool never hands out an element that is still held, refuses exactly when all are held, and takes back exactly held elements.", "quantifier": "all operation sequences", "why_tests_cant": "unbounded histories", "anchors": ["libs/util/lru_cache.hpp", "libs/util/SimpleMemoryPool.hpp"]}
{"id": "C29", "title": "Client sequence numbers are unique and increasing", "statement": "While the clock shows a time between 1970 and 2109, the request numbers generated by a client process are strictly increasing even if the clock stands still or goes backwards, and continue increasing after a restart with a later clock.", "quantifier": "all clock behaviours", "why_tests_cant": "clock cannot be controlled exhaustively", "anchors": ["client/bftclient/include/bftclient/seq_num_generator.h"]}
{"id": "C30", "title": "Scheduled actions run exactly at their periods", "statement": "A periodic scheduled action runs at most once per period with respect to the agreed time and is rescheduled from replicated state, so all replicas run it at the same ticks.", "quantifier": "all tick sequences", "why_tests_cant": "unbounded histories", "anchors": ["ccron/src/cron_table.cpp", "ccron/src/periodic_action.cpp"]}
{"id": "C31", "title": "Collectors are distinct replicas other than the primary", "statement": "For every view and sequence number the replicas chosen to collect commit proofs are distinct valid replicas, different from the primary of the view: one if c=0 and two otherwise.", "quantifier": "all f, c, views and sequence numbers", "why_tests_cant": "unbounded configurations", "anchors": ["bftengine/src/bftengine/ReplicasInfo.cpp: getCollectorsForPartialProofs"]}
{"id": "C32", "title": "Reserved pages are kept and transferred faithfully", "statement": "Loading a reserved page returns what was saved to it last, through any sequence of saves, checkpoints and clean-ups; and when a replica accepts the reserved pages sent by any source against the digest reported by f+1 replicas, every page it then reads at that checkpoint is the one of a correct replica; the pages sent by a correct source are accepted.", "quantifier": "all sequences of saves and checkpoints, all byte strings sent by the source, all stores of the two replicas", "why_tests_cant": "adversarial byte strings and unbounded histories", "anchors": ["bftengine/src/bcstatetransfer/BCStateTran.cpp: checkVirtualBlockOfResPages, createVBlock, checkpointReservedPages, loadReservedPage", "bftengine/src/bcstatetransfer/InMemoryDataStore.cpp"]}
{"id": "C33", "title": "State transfer writes only blocks of the agreed chain, and all of them", "statement": "While a replica fetches missing blocks, whatever the sources send, in whatever order, and wherever it crashes, every block it writes is the block of that number in the chain whose last digest f+1 replicas reported; the first required block it keeps persistently never passes a block that is not stored; when fetching ends all missing blocks are stored; and a correct source whose messages arrive in order is never blamed and completes each batch.", "quantifier": "all message contents and orders, source changes, I/O completion orders and crash points", "why_tests_cant": "adversarial inputs and unbounded histories", "anchors": ["bftengine/src/bcstatetransfer/BCStateTran.cpp: onMessage(ItemDataMsg), processData, getNextFullBlock, checkBlock, finalizePutblockAsync, computeNextBatchToFetch, continueSendBatch"]}
{"id": "C34", "title": "A verifying combined signature proves that enough different signers signed", "statement": "When the multisignature verifier accepts a combined signature on a digest, at least the threshold number of different signers signed that digest; valid shares of that many signers always combine, in any order, to a signature that verifies; combining shares sent by faulty replicas never stops the process, and a replica is reported as having sent a bad share only if it did.", "quantifier": "all combined signatures and shares as byte strings, all orders of shares, all iteration orders of the hash map, all signature schemes", "why_tests_cant": "adversarial inputs; every schedule of shares", "anchors": ["libs/crypto/src/threshsign/eddsa/EdDSAMultisigVerifier.cpp: verify, add, getFullSignedData", "libs/crypto/src/threshsign/eddsa/EdDSAMultisigSigner.cpp: signData", "bftengine/src/bftengine/CollectorOfThresholdSignatures.hpp: SignaturesProcessingJob::execute"]}
{"id": "C35", "title": "A subscriber gets every update of the chain, in order, and only those", "statement": "While at most f of the thin-replica servers are faulty, the updates a subscription hands to the application are the updates of the chain, from the requested one on, in order, without gaps, duplicates or changes, whatever the faulty servers answer and whichever calls time out or fail; the subscription ends with an error only if enough honest servers report it; and it goes on while more than f honest servers answer.", "quantifier": "all answers of faulty servers, all patterns of timeouts and failures, all iteration orders, any number of updates", "why_tests_cant": "adversarial servers and unbounded schedules", "anchors": ["client/thin-replica-client/src/thin_replica_client.cpp: receiveUpdates, readBlock, findBlockHashAgreement, rotateDataStreamAndVerify, recordCollectedHash", "client/thin-replica-client/src/trc_hash.cpp: hashUpdate", "client/thin-replica-client/src/grpc_connection.cpp"]}
{"id": "C36", "title": "Exchanged keys take effect at the same point on every replica and are the ones replicas sign with", "statement": "Replicas that executed the same key exchange requests use, for every sequence number, the same verification key for every replica: the one of its latest exchange generated at least two checkpoints earlier, or the initial one; executing an exchange never changes the keys of sequence numbers executed before; a replica signs with the private key belonging to the key the others have for it; restarts, crashes and state transfer change none of this; and a request concerns only the key of the replica that sent it.", "quantifier": "all orders of exchange requests and their contents, all sequence numbers, all restart, crash and state transfer points", "why_tests_cant": "unbounded histories, crash points and adversarial messages", "anchors": ["bftengine/src/bftengine/KeyExchangeManager.cpp: onKeyExchange, notifyRegistry, loadPublicKeys, generateConsensusKeyAndSendInternalClientMsg", "bftengine/include/bftengine/CryptoManager.hpp: get, create, onPublicKeyExchange, onPrivateKeyExchange", "bftengine/src/bftengine/KeyStore.h: ClusterKeyStore"]}
{"id": "C37", "title": "A thin-replica subscriber is sent exactly the event groups and events it may see, in order and consecutively numbered", "statement": "The event groups a server sends to a client are, in the order of the chain, the public ones and the ones tagged for that client, from the requested one on, each with only the events the client may see and numbered consecutively without gaps or repetitions, whichever of them are public or private and however many were pruned; the hash stream has the hash of exactly those groups, whatever the order of their events; requests outside the range are refused; and no event of another client is ever sent.", "quantifier": "all histories of public, private and unrelated event groups, pruning points, requested ids and sets of announced updates", "why_tests_cant": "unbounded histories with two merged id sequences and a binary search over them", "anchors": ["kvbc/src/kvbc_app_filter/kvbc_app_filter.cpp: oldestExternalEventGroupId, newestExternalEventGroupId, findGlobalEventGroupId, readEventGroups, readEventGroupHash, hashEventGroupUpdate, filterEventsInEventGroup, readBlockRange", "kvbc/include/kvbc_app_filter/kvbc_app_filter.h", "thin-replica-server/include/thin-replica-server/thin_replica_impl.hpp: syncAndSendEventGroups, SubscribeToUpdates"]}
{"id": "C38", "title": "A cluster ordered to stop stops every replica at the same sequence number, and goes on together", "statement": "After an operator's stop order (wedge, add-remove with wedge, restart, install) executed at sequence number s, and no later one, every replica executes exactly up to the second checkpoint after s, and neither accepts proposals for nor executes any later number until it is let go on there; this holds through any interleaving, process restarts and state transfers. Replicas stopped in the same epoch are at the same number. Before the stop point no proposal in the window is refused. A replica restarts on a proof only when it has stopped and enough different replicas have signed that they are ready.", "quantifier": "all agreed command sequences, interleavings of accepting, executing, checkpointing, restarting, state transfer, pruning and letting go on; all messages", "why_tests_cant": "unbounded histories over a cluster with restarts and state transfer", "anchors": ["bftengine/src/bftengine/ControlStateManager.cpp: setStopAtNextCheckpoint, onRestartProof", "bftengine/src/bftengine/ReplicaImp.cpp: isSeqNumToStopAt, executeNextCommittedRequests, onSeqNumIsStable, onTransferringCompleteImp", "kvbc/src/Replica.cpp: handleWedgeEvent, handleNewEpochEvent", "kvbc/src/st_reconfiguration_sm.cpp: stCallBack", "kvbc/src/reconfiguration_kvbc_handler.cpp", "bftengine/src/bftengine/messages/ReplicasRestartReadyProofMsg.cpp: validate, checkElements"]}
{"id": "C39", "title": "No bytes from the network make a node access memory outside of the message, and what correct nodes send is accepted and read back as sent", "statement": "Whatever bytes arrive as a message of any type, checking it and then reading any of its fields or elements accesses only bytes of the message and never stops the process; a message made by a correct node of the same epoch is accepted by every other node it is meant for, and its fields and the elements of batches come out exactly as they were put in; and when a message that carries a signature is accepted, its signer signed bytes that determine its content.", "quantifier": "all byte strings as messages from any sender, all field values of messages of correct nodes, batches of any size, all configurations", "why_tests_cant": "arbitrary bytes in every message type", "anchors": ["bftengine/src/bftengine/messages: SimpleAckMsg, StartSlowCommitMsg, ReqMissingDataMsg, FullCommitProofMsg, SignedShareMsgs, PartialCommitProofMsg, NewViewMsg, CheckpointMsg, ReplicaStatusMsg, ReplicaAsksToLeaveViewMsg, ReplicaRestartReadyMsg, ReplicasRestartReadyProofMsg, AskForCheckpointMsg, StateTransferMsg, ClientReplyMsg, ClientRequestMsg", "bftengine/src/preprocessor/messages: ClientBatchRequestMsg, PreProcessRequestMsg, PreProcessReplyMsg, PreProcessBatchRequestMsg, PreProcessBatchReplyMsg", "bftengine/src/bcstatetransfer/BCStateTran.cpp: handleStateTransferMessageImp and the checks of the onMessage functions", "client/bftclient/src/msg_receiver.cpp"]}
{"id": "C40", "title": "Every request accepted by the client pool gets exactly one answer, its own", "statement": "A request given to the client pool is either refused with one error (invalid, all clients busy, or no free client connected) or acknowledged; an acknowledged request is called back exactly once, with the reply to it or an error; a free and connected client that can take it is always used. No client is used by two jobs at once. Requests collected for a batch are sent when the batch is full or the timer ends, and are never forgotten; the pool does not crash.", "quantifier": "all interleavings of application threads, the timer's thread, workers and connection changes; any number of clients, batch size and requests", "why_tests_cant": "all schedules of several threads", "anchors": ["client/client_pool/src/concord_client_pool.cpp: SendRequest, assignJobToClient, OnBatchingTimeout, InsertClientToQueue, BatchRequestProcessingJob, SingleRequestProcessingJob", "client/client_pool/src/external_client.cpp: SendPendingRequests, AddPendingRequest", "client/client_pool/include/client/client_pool/client_pool_timer.hpp: Timer", "client/bftclient/src/bft_client.cpp: sendBatch"]}
{"id": "C41", "title": "Faulty replicas cannot make the others leave a view, and cannot keep them in one", "statement": "While no correct replica wants to leave a view from v on, and the primary of v is correct, no correct replica moves beyond v, whatever the faulty replicas send. When f+1 different replicas complain about a view, a replica that has their complaints leaves it, and its view-change message takes along every correct replica that is behind and accepts it; f+1 replicas that ask for a view are followed. A replica becomes active in a view only with the support of 2f+2c+1 replicas. Views do not go down except by a restart, which keeps the last active view. No message from a faulty replica stops the process.", "quantifier": "all sequences of complaints, timeouts, rotations, view-change and new-view messages, restarts; all contents of messages of faulty replicas; any number of replicas", "why_tests_cant": "adversarial messages and unbounded schedules", "anchors": ["bftengine/src/bftengine/ReplicaImp.cpp: onMessage<ReplicaAsksToLeaveViewMsg>, onMessage<ViewChangeMsg>, MoveToHigherView, tryToGoToNextView, askToLeaveView", "bftengine/src/bftengine/ViewsManager.cpp: add, processComplaintsFromViewChangeMessage, tryToJumpToHigherViewAndMoveComplaintsOnQuorum, prepareViewChangeMsgAndSetHigherView, createOutsideView", "bftengine/src/bftengine/ReplicasAskedToLeaveViewInfo.hpp"]}
{"id": "C42", "title": "Requests the primary accepts are proposed, in order, once, and with proper numbers", "statement": "Whatever requests, timers, executions, checkpoints, state transfers, prunings, stops and view changes happen in whatever order: the primary proposes only in its own active view, with numbers that grow and stay within the work window and the concurrency level, and never an empty batch; requests are proposed in the order in which they were accepted, none twice in a view; a request leaves the primary's queue only into a proposal or because it cannot be processed (answered, in process already, too many of its client); every request held as in process has been proposed. The size limits of the batching policies are kept, an idle primary sends at once, and the timer empties the queue.", "quantifier": "all sequences of requests and events, all batching policies and configurations, any number of clients and sizes of requests", "why_tests_cant": "unbounded histories, completion order of threads", "anchors": ["bftengine/src/bftengine/ReplicaImp.cpp: onMessage<ClientRequestMsg>, checkSendPrePrepareMsgPrerequisites, removeDuplicatedRequestsFromRequestsQueue, tryToSendPrePrepareMsg, buildPrePrepareMessage, buildPrePrepareMessageByRequestsNum, buildPrePrepareMessageByBatchSize, addRequestToPrePrepareMessage, finishAddingRequestsToPrePrepareMsg, startConsensusProcess, onInternalMsg, onNewView", "bftengine/src/bftengine/RequestsBatchingLogic.cpp", "bftengine/src/bftengine/messages/PrePrepareMsg.cpp: constructor, remainingSizeForRequests, addRequest"]}
{"id": "C43", "title": "A replica that fetches state always has a source, and tries them all", "statement": "Whatever certificates, restarts, answers, rejections, invalid or missing data and PrePrepare messages come, in whatever order and at whatever times: a replica that fetches state always has another replica to fetch from, chooses only replicas of the cluster, and no assertion about the source fails. Every replica but the primary is tried after a bounded number of choices; the primary is spared; a source from which nothing comes is replaced after a bounded number of timeouts, and one that answers in time is kept; a source that is of no use is replaced.", "quantifier": "all sequences of events, all random choices and times, any number of replicas and all configurations", "why_tests_cant": "unbounded histories, timing and random choices", "anchors": ["bftengine/src/bcstatetransfer/SourceSelector.cpp: all functions", "bftengine/src/bcstatetransfer/SourceSelector.hpp", "bftengine/src/bcstatetransfer/BCStateTran.cpp: processData, onMessage<RejectFetchingMsg>, onMessage<ItemDataMsg>, onMessage<CheckpointSummaryMsg>, trySendFetchBlocksMsg, startCollectingStateImpl, stReset, init, handleIncomingConsensusMessageImpl", "bftengine/src/bftengine/ReplicaImp.cpp: messageHandler, peekConsensusMessage"]}
{"id": "C44", "title": "Accepted messages are handled once, in order, and soon", "statement": "Whatever threads and the network push while the dispatching thread runs: every external message that is accepted, and every internal one, is taken exactly once, external ones in the order of acceptance and internal ones in theirs; an internal message is not overtaken by an external one accepted after it; no message starves, however many others are pushed; a message is refused only when the queue is full, so that memory is bounded; each message goes to the handler of its type, and the callback of each that is taken runs once; what comes from the network has a header and is not too long.", "quantifier": "all interleavings of pushes, receptions and turns of the dispatching thread, all messages and queue sizes", "why_tests_cant": "unbounded histories, interleaving of threads", "anchors": ["bftengine/src/bftengine/IncomingMsgsStorageImp.cpp: pushExternalMsg, pushInternalMsg, getMsgForProcessing, popThreadLocal, dispatchMessages, stop", "bftengine/src/bftengine/IncomingMsgsStorageImp.hpp", "bftengine/src/bftengine/MsgReceiver.cpp: onNewMessage", "bftengine/src/bftengine/MsgHandlersRegistrator.hpp"]}
{"id": "C45", "title": "Timers go off when they are due, and not otherwise", "statement": "Whatever timers are added, reset and cancelled, and whenever they are looked at: a timer goes off at the first look after its duration, a recurring one again at the first look after its duration since, a one-shot one never again; a reset starts it anew with the new duration; a cancelled timer never goes off again; handles are never used twice; in one look timers go off in the order in which they were added, each at most once; callbacks that reset timers do no harm, and neither do those that add or cancel timers.", "quantifier": "all sequences of operations and looks at any times, all callbacks", "why_tests_cant": "unbounded histories, callbacks that change the timers", "anchors": ["libs/util/Timers.hpp: Timers::add, reset, cancel, evaluate, find, Timer", "bftengine/src/bftengine/ReplicaForStateTransfer.cpp: addOneShotTimer, init", "bftengine/src/bcstatetransfer/BCStateTran.cpp: addOneShotTimer"]}
{"id": "C46", "title": "The replica-specific part of a reply is kept", "statement": "Whatever replies with replica-specific information are saved, for whatever clients: the information of a request is the one saved for it, as long as it is among the last ones of its client; each of those is stored in full; a restart keeps them, does no harm, and what is saved after it takes the place of the oldest; what is saved is what the execution of the request returned, and a reply with it can be sent again.", "quantifier": "all sequences of replies and restarts, all clients, batch sizes and contents", "why_tests_cant": "unbounded histories, crash points", "anchors": ["bftengine/src/bftengine/ReplicaSpecificInfoManager.cpp: RsiItem::serialize, deserialize, RsiDataManager::getRsiForClient, setRsiForClient, init", "bftengine/src/bftengine/ClientsManager.cpp: allocateNewReplyMsgAndWriteToStorage, allocateReplyFromSavedOne", "bftengine/src/bftengine/messages/ClientReplyMsg.cpp: setReplyLength"]}
{"id": "C47", "title": "Database snapshots that are listed exist, and no others", "statement": "Whatever snapshots are requested, in whatever order they are made, whatever writes fail, whenever disk space is low and whenever the replica crashes: a snapshot that is listed is complete and prepared for use, and stays listed after a restart; no directory is left that is not listed; there are never more than the configured number, and the oldest goes first; a snapshot that is pending will be made or is being made; the last created one is one that exists; no thread waits for itself; the list fits its place in the metadata.", "quantifier": "all sequences of requests, creations, failures, removals and crashes at any point, any configured number", "why_tests_cant": "unbounded histories, crash points, interleaving of threads", "anchors": ["bftengine/src/bftengine/DbCheckpointManager.cpp: createDbCheckpointAsync, createDbCheckpoint, init, checkAndRemove, removeOldestDbCheckpoint, removeDbCheckpointFuture, updateDbCheckpointMetadata, loadCheckpointDataFromPersistence, getCheckpointState, setNextStableSeqNumToCreateSnapshot", "bftengine/include/bftengine/DbCheckpointMetadata.hpp", "storage/src/rocksdb_client.cpp: createCheckpoint, removeCheckpoint, getListOfCreatedCheckpoints"]}
{"id": "C48", "title": "A read-only replica fetches the state that the cluster agreed on", "statement": "Whatever checkpoint messages arrive, in whatever order, from whatever replicas, up to f of them faulty: a read-only replica starts a state transfer only when a quorum of different replicas has sent equal stable checkpoints above its own state, so that at least f+c+1 correct ones vouch for it; it starts as soon as that is so, whatever the faulty ones sent before; it stores a descriptor that holds what the quorum agreed on; and the memory it needs is bounded.", "quantifier": "all sequences of checkpoint messages, completions of transfers and epoch changes, all f and c, all sets of faulty replicas", "why_tests_cant": "unbounded histories, Byzantine senders", "anchors": ["bftengine/src/bftengine/ReadOnlyReplica.cpp: onMessage<CheckpointMsg>, persistCheckpointDescriptor, onTransferringCompleteImp", "bftengine/src/bftengine/CheckpointInfo.hpp", "bftengine/src/bftengine/messages/CheckpointMsg.cpp: validate, equivalent"]}
{"id": "C49", "title": "A signature share counts for one proposal only", "statement": "For every proposal digest: the digest that replicas sign for it at a view and a sequence number differs from the one for any other view or sequence number, so that shares and certificates cannot be used elsewhere; and it differs from those of other digests.", "quantifier": "all digests, views and sequence numbers", "why_tests_cant": "all 64-bit numbers and digests", "anchors": ["libs/crypto/digest_holder.hpp: calcCombination", "bftengine/src/bftengine/messages/SignedShareMsgs.cpp: create", "bftengine/src/bftengine/SeqNumInfo.cpp: addSelfMsg, addSelfCommitPartialMsgAndDigest"]}
{"id": "C50", "title": "Every principal has one role, and collectors are the right replicas", "statement": "For every configuration: each valid principal id belongs to exactly one of replicas, read-only replicas, client proxies, external clients, client services and internal clients, and no other id to any, with the operator among the external clients; in every view and for every sequence number the collectors of signature shares are distinct replicas other than the primary (one with c = 0, two otherwise), and with c = 0 each of the others takes its turn among any n consecutive numbers.", "quantifier": "all configurations, ids, views and sequence numbers", "why_tests_cant": "all sizes of clusters and client sets, all views and numbers", "anchors": ["bftengine/src/bftengine/ReplicasInfo.cpp: constructor, getCollectorsForPartialProofs", "bftengine/src/bftengine/ReplicasInfo.hpp: isIdOf..., primaryOfView, getIdOfOperator"]}
