-Q theories Verif
theories/Base.v
theories/Trace.v
theories/PermTac.v
theories/RclTime.v
theories/Cache_Model.v
theories/Cache_Spec.v
theories/Cache_Proofs.v
theories/Cache_Props.v
theories/Exact_Model.v
theories/Exact_Spec.v
theories/Exact_Proofs.v
theories/Exact_Props.v
theories/Eps_Model.v
theories/Eps_Spec.v
theories/Eps_Proofs.v
theories/Eps_Props.v
theories/Seq_Model.v
theories/Seq_Spec.v
theories/Seq_Proofs.v
theories/Seq_Props.v
theories/Aligner_Model.v
theories/Aligner_Spec.v
theories/Aligner_Proofs.v
theories/Aligner_Props.v
theories/Approx_Model.v
theories/Approx_Spec.v
theories/Approx_Proofs.v
theories/Approx_Opt.v
theories/Approx_More.v
theories/Approx_Props.v
theories/ApproxScale_Model.v
theories/ApproxScale_Props.v
theories/Latest_Model.v
theories/Latest_Spec.v
theories/Latest_Proofs.v
theories/Latest_Props.v
theories/Latest_Steady.v
theories/LatestRate_Props.v
theories/Signal_Model.v
theories/Signal_Spec.v
theories/Signal_Proofs.v
theories/Signal_Props.v
theories/Event_Model.v
theories/Event_Spec.v
theories/Event_Proofs.v
theories/Event_Props.v
theories/Order_Model.v
theories/Order_Spec.v
theories/Order_Props.v
theories/Net_Model.v
theories/Net_Spec.v
theories/Net_Flow.v
theories/Net_Wiring.v
theories/Net_Proofs.v
theories/Net_Chain.v
theories/Net_Streams.v
theories/Net_Links.v
theories/Net_Life.v
theories/Net_Rank.v
theories/Net_Props.v
theories/Sub_Model.v
theories/Sub_Spec.v
theories/Sub_Proofs.v
theories/Sub_Props.v
theories/Py_Model.v
theories/PyCache_Props.v
theories/PySync_Spec.v
theories/PySync_Proofs.v
theories/PySync_Runs.v
theories/PySync_Policies.v
theories/PySync_Meet.v
theories/PySync_Props.v
theories/Sched_Model.v
theories/Sched_Spec.v
theories/Sched_Proofs.v
theories/Sched_Runs.v
theories/Sched_Props.v
theories/Race_Model.v
theories/Race_Spec.v
theories/Race_Proofs.v
theories/Race_Props.v
theories/Conn_Model.v
theories/Conn_Spec.v
theories/Conn_Proofs.v
theories/Conn_Props.v
theories/Ctor_Model.v
theories/Ctor_Spec.v
theories/Ctor_Props.v
theories/PyFilter_Model.v
theories/PyFilter_Spec.v
theories/PyFilter_Props.v
theories/Copy_Model.v
theories/Copy_Spec.v
theories/Copy_Proofs.v
theories/Copy_Props.v
theories/Throw_Model.v
theories/Throw_Spec.v
theories/Throw_Approx.v
theories/Throw_Proofs.v
theories/Throw_Props.v
theories/Throw_Reach.v
theories/ThrowReach_Props.v
theories/LatestDouble_Model.v
theories/LatestDouble_Spec.v
theories/LatestDouble_Laws.v
theories/LatestDouble_Bounds.v
theories/LatestDouble_Rate.v
theories/LatestDouble_Steady.v
theories/LatestDouble_Estimate.v
theories/LatestDouble_Props.v
theories/Stamp_Model.v
theories/Stamp_Spec.v
theories/Stamp_Proofs.v
theories/Stamp_Eps.v
theories/Stamp_Approx.v
theories/Stamp_Props.v
theories/ApproxSet_Model.v
theories/ApproxSet_Spec.v
theories/ApproxSet_Proofs.v
theories/ApproxSet_Props.v
theories/Time64_Model.v
theories/Time64_Spec.v
theories/Time64_Proofs.v
theories/Time64_Props.v
theories/E2E_Spec.v
theories/E2E_Props.v
theories/PyRe_Model.v
theories/PyRe_Spec.v
theories/PyRe_Proofs.v
theories/PyRe_Props.v
theories/EpsOrder_Spec.v
theories/EpsOrder_Proofs.v
theories/EpsOrder_Props.v
theories/ExactBound_Spec.v
theories/ExactBound_Proofs.v
theories/ExactBound_Props.v
theories/Drop_Model.v
theories/Drop_Spec.v
theories/Drop_Proofs.v
theories/Drop_Props.v
theories/SeqTime_Spec.v
theories/SeqTime_Proofs.v
theories/SeqTime_Props.v
theories/AlignMerge_Spec.v
theories/AlignMerge_Proofs.v
theories/AlignMerge_Props.v
theories/ApproxGroups_Spec.v
theories/ApproxGroups_Proofs.v
theories/ApproxGroups_Props.v
theories/Merged_Spec.v
theories/Merged_Proofs.v
theories/Merged_Props.v
theories/Dtor_Model.v
theories/Dtor_Spec.v
theories/Dtor_Proofs.v
theories/Dtor_Props.v
theories/Own_Model.v
theories/Own_Spec.v
theories/Own_Proofs.v
theories/Own_Props.v
theories/Reent_Model.v
theories/Reent_Spec.v
theories/Reent_Proofs.v
theories/Reent_Props.v
theories/Keep_Model.v
theories/Keep_Spec.v
theories/Keep_Proofs.v
theories/Keep_Props.v
theories/CacheInt_Model.v
theories/CacheInt_Proofs.v
theories/CacheInt_Props.v
theories/CopyFail_Model.v
theories/CopyFail_Spec.v
theories/CopyFail_Proofs.v
theories/CopyFail_Props.v
theories/EventThr_Model.v
theories/EventThr_Spec.v
theories/EventThr_Proofs.v
theories/EventThr_Props.v
theories/SeqLate_Spec.v
theories/SeqLate_Proofs.v
theories/SeqLate_Props.v
theories/SetBack_Model.v
theories/SetBack_Spec.v
theories/SetBack_Proofs.v
theories/SetBack_Props.v
theories/AlignBack_Model.v
theories/AlignBack_Spec.v
theories/AlignBack_Proofs.v
theories/AlignBack_Props.v
theories/LatestBack_Model.v
theories/LatestBack_Spec.v
theories/LatestBack_Proofs.v
theories/LatestBack_Props.v
theories/Timer_Model.v
theories/Timer_Spec.v
theories/Timer_Proofs.v
theories/Timer_Props.v
theories/PySub_Model.v
theories/PySub_Spec.v
theories/PySub_Proofs.v
theories/PySub_Props.v
