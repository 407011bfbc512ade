-Q theories Verif
theories/Lib_Sets.v
theories/Quorum_Model.v
theories/Quorum_Proofs.v
theories/Quorum_Props.v
theories/ViewChange_Model.v
theories/ViewChange_Proofs.v
theories/ViewChange_Props.v
theories/Consensus_Model.v
theories/Consensus_Inv.v
theories/Consensus_Pres.v
theories/Consensus_Proofs.v
theories/Consensus_Runs.v
theories/Consensus_Props.v
theories/Window_Model.v
theories/Window_Proofs.v
theories/Window_Props.v
theories/Lib_Bytes.v
theories/Clients_Model.v
theories/Clients_Proofs.v
theories/Clients_Props.v
theories/Matcher_Model.v
theories/Matcher_Proofs.v
theories/Matcher_Props.v
theories/Collector_Model.v
theories/Collector_Proofs.v
theories/Collector_Props.v
theories/Cert_Model.v
theories/Cert_Proofs.v
theories/Cert_Props.v
theories/Time_Model.v
theories/Time_Proofs.v
theories/Time_Props.v
theories/SeqGen_Model.v
theories/SeqGen_Props.v
theories/Lru_Model.v
theories/Lru_Proofs.v
theories/Lru_Props.v
theories/Cron_Model.v
theories/Cron_Props.v
theories/Cmf_Model.v
theories/Cmf_Proofs.v
theories/Cmf_Props.v
theories/Keys_Model.v
theories/Keys_Proofs.v
theories/Keys_Props.v
theories/Lib_CF.v
theories/Versioned_Model.v
theories/Versioned_Proofs.v
theories/Versioned_Props.v
theories/Immutable_Model.v
theories/Immutable_Proofs.v
theories/Immutable_Props.v
theories/V4_Model.v
theories/V4_Proofs.v
theories/V4_Link.v
theories/V4_Latest.v
theories/V4_Recover.v
theories/V4_Hist.v
theories/V4_Props.v
theories/Sub_Model.v
theories/Sub_Proofs.v
theories/Sub_Props.v
theories/Prune_Model.v
theories/Prune_Props.v
theories/Pre_Model.v
theories/Pre_Proofs.v
theories/Pre_Props.v
theories/PrePrep_Model.v
theories/PrePrep_Proofs.v
theories/PrePrep_Props.v
theories/VcMsg_Model.v
theories/VcMsg_Proofs.v
theories/VcMsg_Props.v
theories/StSummary_Model.v
theories/StSummary_Proofs.v
theories/StSummary_Props.v
theories/StPages_Model.v
theories/StPages_Proofs.v
theories/StPages_Proofs2.v
theories/StPages_Proofs3.v
theories/StPages_Props.v
theories/StBlocks_Model.v
theories/StBlocks_Proofs.v
theories/StBlocks_Proofs2.v
theories/StBlocks_Proofs3.v
theories/StBlocks_Props.v
theories/Rvt_Model.v
theories/Rvt_Spec.v
theories/Rvt_Proofs.v
theories/Rvt_Proofs2.v
theories/Rvt_Proofs3.v
theories/Rvt_Proofs4.v
theories/Rvt_Proofs5.v
theories/Rvt_Proofs6.v
theories/Rvt_Proofs7.v
theories/Rvt_Proofs8.v
theories/Rvt_Proofs9.v
theories/Rvt_Proofs10.v
theories/Rvt_Proofs11.v
theories/Rvt_Props.v
theories/Smt_Model.v
theories/Smt_Proofs.v
theories/Smt_Proofs2.v
theories/Smt_Proofs3.v
theories/Smt_Proofs4.v
theories/Smt_Proofs5.v
theories/Smt_Proofs6.v
theories/Smt_Proofs7.v
theories/Smt_Proofs8.v
theories/Smt_Spec.v
theories/Smt_Proofs9.v
theories/Smt_Props.v
theories/Meta_Model.v
theories/Meta_Spec.v
theories/Meta_Proofs.v
theories/Meta_Proofs2.v
theories/Meta_Proofs3.v
theories/Meta_Proofs4.v
theories/Meta_Proofs5.v
theories/Meta_Props.v
theories/Meta_Props2.v
theories/KvChain_Model.v
theories/KvChain_Proofs.v
theories/KvChain_Proofs2.v
theories/KvChain_Proofs3.v
theories/KvChain_Proofs4.v
theories/KvChain_Proofs5.v
theories/KvChain_Props.v
theories/EdMsig_Model.v
theories/EdMsig_Proofs.v
theories/EdMsig_Proofs2.v
theories/EdMsig_Props.v
theories/Trc_Model.v
theories/Trc_Proofs.v
theories/Trc_Proofs2.v
theories/Trc_Proofs3.v
theories/Trc_Proofs4.v
theories/Trc_Props.v
theories/Kex_Model.v
theories/Kex_Proofs.v
theories/Kex_Proofs2.v
theories/Kex_Proofs3.v
theories/Kex_Props.v
theories/Flt_Model.v
theories/Flt_Proofs.v
theories/Flt_Proofs2.v
theories/Flt_Proofs3.v
theories/Flt_Proofs4.v
theories/Flt_Props.v
theories/Wedge_Model.v
theories/Wedge_Proofs.v
theories/Wedge_Props.v
theories/Wire_Model.v
theories/Wire_Proofs.v
theories/Wire_Proofs2.v
theories/Wire_Proofs3.v
theories/Wire_Props.v
theories/Pool_Model.v
theories/Pool_Proofs.v
theories/Pool_Proofs2.v
theories/Pool_Props.v
theories/Leave_Model.v
theories/Leave_Proofs.v
theories/Leave_Proofs2.v
theories/Leave_Proofs3.v
theories/Leave_Props.v
theories/Batch_Model.v
theories/Batch_Proofs.v
theories/Batch_Proofs2.v
theories/Batch_Proofs3.v
theories/Batch_Proofs4.v
theories/Batch_Props.v
theories/Src_Model.v
theories/Src_Proofs.v
theories/Src_Proofs2.v
theories/Src_Props.v
theories/Inq_Model.v
theories/Inq_Proofs.v
theories/Inq_Props.v
theories/Timers_Model.v
theories/Timers_Proofs.v
theories/Timers_Props.v
theories/Rsi_Model.v
theories/Rsi_Proofs.v
theories/Rsi_Props.v
theories/Snap_Model.v
theories/Snap_Proofs.v
theories/Snap_Props.v
theories/Ro_Model.v
theories/Ro_Proofs.v
theories/Ro_Props.v
theories/Dig_Model.v
theories/Dig_Props.v
theories/Ids_Model.v
theories/Ids_Props.v
