-Q theories Verif
theories/L_Any.v
theories/L_Async.v
theories/L_Base.v
theories/L_BinExpr.v
theories/L_BinMem.v
theories/L_Brackets.v
theories/L_Cache.v
theories/L_Comb.v
theories/L_Comb2.v
theories/L_Cost.v
theories/L_Cut.v
theories/L_Drop.v
theories/L_EndToEnd.v
theories/L_Ends.v
theories/L_Eval.v
theories/L_Example.v
theories/L_Example2.v
theories/L_Example3.v
theories/L_GenArc.v
theories/L_GenSeq.v
theories/L_GenSeq2.v
theories/L_Iter.v
theories/L_Lang.v
theories/L_Laws.v
theories/L_Layers.v
theories/L_Live.v
theories/L_LiveFold.v
theories/L_LiveJoin.v
theories/L_LiveOwn.v
theories/L_Metrics.v
theories/L_Notify.v
theories/L_Notify2.v
theories/L_Peg.v
theories/L_PegOn.v
theories/L_Pipe.v
theories/L_Prim.v
theories/L_Release.v
theories/L_Resume.v
theories/L_Runner.v
theories/L_Seq.v
theories/L_ShortVec.v
theories/L_StdLines.v
theories/L_StrBytes.v
theories/L_TestExpr.v
theories/L_Unwind.v
theories/L_Utf8.v
theories/L_Utf8Gen.v
theories/L_Utf8Run.v
theories/L_Validator.v
theories/L_Why.v
theories/L_Work.v
theories/L_Work2.v
theories/L_Writer.v
theories/L_WriterUnwind.v
theories/M_AdvSafe.v
theories/M_Async.v
theories/M_Base.v
theories/M_BinExpr.v
theories/M_BinExprMem.v
theories/M_Cache.v
theories/M_Comb.v
theories/M_Drop.v
theories/M_Example.v
theories/M_GenArc.v
theories/M_GenSeq.v
theories/M_Iter.v
theories/M_Iterator.v
theories/M_Live.v
theories/M_LiveFold.v
theories/M_LiveFull.v
theories/M_LiveJoin.v
theories/M_Metrics.v
theories/M_Notify.v
theories/M_Prim.v
theories/M_Reactive.v
theories/M_Reenter.v
theories/M_Release.v
theories/M_Repeat.v
theories/M_Runner.v
theories/M_RunnerFull.v
theories/M_Seq.v
theories/M_ShortVec.v
theories/M_ShortVecUnwind.v
theories/M_TestExpr.v
theories/M_Unwind.v
theories/M_Utf8.v
theories/M_Writer.v
theories/M_WriterUnwind.v
theories/P_AdvSafe.v
theories/P_Any.v
theories/P_Async.v
theories/P_AsyncWait.v
theories/P_BinExpr.v
theories/P_BinMem.v
theories/P_Brackets.v
theories/P_Cache.v
theories/P_Calls.v
theories/P_Comb.v
theories/P_Contract.v
theories/P_Cost.v
theories/P_Cut.v
theories/P_Drop.v
theories/P_Early.v
theories/P_EndToEnd.v
theories/P_Ends.v
theories/P_Eval.v
theories/P_Example.v
theories/P_Foreign.v
theories/P_GenArc.v
theories/P_GenSeq.v
theories/P_Iter.v
theories/P_Iterator.v
theories/P_Lang.v
theories/P_Laws.v
theories/P_Layers.v
theories/P_Live.v
theories/P_LiveEnds.v
theories/P_LiveFields.v
theories/P_LiveFold.v
theories/P_LiveFull.v
theories/P_LiveJoin.v
theories/P_LiveJoinEnds.v
theories/P_LiveLate.v
theories/P_LiveLook.v
theories/P_LiveOwn.v
theories/P_Metrics.v
theories/P_Never.v
theories/P_Notify.v
theories/P_Notify2.v
theories/P_Peg.v
theories/P_PegOn.v
theories/P_Pipe.v
theories/P_Prim.v
theories/P_Reactive.v
theories/P_Reenter.v
theories/P_Release.v
theories/P_Repeat.v
theories/P_Runner.v
theories/P_RunnerFull.v
theories/P_RunnerOpen.v
theories/P_Seq.v
theories/P_ShortVec.v
theories/P_ShortVecUnwind.v
theories/P_StdLines.v
theories/P_StrBytes.v
theories/P_TestExpr.v
theories/P_Utf8.v
theories/P_Utf8Live.v
theories/P_Utf8Run.v
theories/P_Utf8Segs.v
theories/P_Why.v
theories/P_Work.v
theories/P_Work2.v
theories/P_WriterUnwind.v
theories/S_AdvSafe.v
theories/S_Any.v
theories/S_Async.v
theories/S_AsyncWait.v
theories/S_BinExpr.v
theories/S_BinMem.v
theories/S_Brackets.v
theories/S_Cache.v
theories/S_Calls.v
theories/S_Comb.v
theories/S_Contract.v
theories/S_Cost.v
theories/S_Cut.v
theories/S_Drop.v
theories/S_Early.v
theories/S_EndToEnd.v
theories/S_Ends.v
theories/S_Eval.v
theories/S_Example.v
theories/S_Foreign.v
theories/S_GenArc.v
theories/S_GenSeq.v
theories/S_Iter.v
theories/S_Iterator.v
theories/S_Lang.v
theories/S_Laws.v
theories/S_Layers.v
theories/S_Live.v
theories/S_LiveEnds.v
theories/S_LiveFold.v
theories/S_LiveJoin.v
theories/S_LiveJoinEnds.v
theories/S_Metrics.v
theories/S_Never.v
theories/S_Notify.v
theories/S_Peg.v
theories/S_PegOn.v
theories/S_Pipe.v
theories/S_Prim.v
theories/S_Reenter.v
theories/S_Release.v
theories/S_Repeat.v
theories/S_Runner.v
theories/S_RunnerFull.v
theories/S_RunnerOpen.v
theories/S_Seq.v
theories/S_ShortVec.v
theories/S_ShortVecUnwind.v
theories/S_StdLines.v
theories/S_StrBytes.v
theories/S_TestExpr.v
theories/S_Unwind.v
theories/S_Utf8.v
theories/S_Utf8Run.v
theories/S_Why.v
theories/S_Work.v
theories/S_Work2.v
theories/S_WriterUnwind.v
