-Q theories Verif
theories/Base.v
theories/S_Bits.v
theories/M_Bits.v
theories/L_Bits.v
theories/P_Bits.v
theories/M_Kron.v
theories/S_Kron.v
theories/L_Kron.v
theories/L_Kron2.v
theories/L_Kron3.v
theories/P_Kron.v
theories/L_Alg.v
theories/M_Ops.v
theories/S_Ops.v
theories/L_Ops1.v
theories/L_Ops2.v
theories/L_Ops3.v
theories/L_Ops4.v
theories/BaseR.v
theories/M_Gates.v
theories/L_Gates.v
theories/P_Ops.v
theories/M_Feed.v
theories/S_Feed.v
theories/L_Feed.v
theories/L_Feed2.v
theories/P_Feed.v
theories/M_Measure.v
theories/S_Measure.v
theories/L_Measure1.v
theories/L_Measure2.v
theories/L_Measure3.v
theories/L_Measure4.v
theories/L_Measure5.v
theories/L_Measure6.v
theories/P_Measure.v
theories/M_Func.v
theories/S_Func.v
theories/L_Func.v
theories/L_Func2.v
theories/P_Func.v
theories/M_Int.v
theories/S_Int.v
theories/L_Int1.v
theories/L_Int2.v
theories/L_Int3.v
theories/P_Int.v
theories/M_Graph.v
theories/S_Graph.v
theories/L_Graph1.v
theories/L_Graph2.v
theories/L_Graph3.v
theories/L_Graph4.v
theories/L_Graph5.v
theories/L_Graph6.v
theories/L_Graph7.v
theories/L_Graph8.v
theories/L_Graph9.v
theories/L_Graph10.v
theories/L_Graph11.v
theories/L_Graph12.v
theories/P_Graph.v
theories/S_Malformed.v
theories/L_Malformed1.v
theories/L_Malformed2.v
theories/P_Malformed.v
theories/M_Print.v
theories/S_Print.v
theories/L_Print.v
theories/L_Print2.v
theories/P_Print.v
theories/M_Svg.v
theories/S_Svg.v
theories/L_Svg.v
theories/P_Svg.v
theories/M_Context.v
theories/S_Context.v
theories/L_Fourier.v
theories/L_Sinks.v
theories/L_Grow1.v
theories/S_Born.v
theories/L_Born.v
theories/P_Born.v
theories/L_Grow2.v
theories/L_Context1.v
theories/L_Context2.v
theories/L_Context3.v
theories/L_Context4.v
theories/L_Context5.v
theories/L_QFFT1.v
theories/L_QFFT2.v
theories/L_QFFT3.v
theories/L_QFFT4.v
theories/L_QFFT5.v
theories/L_DftNorm.v
theories/M_ContextR.v
theories/S_ContextR.v
theories/L_Context6.v
theories/L_QFFT6.v
theories/L_Context7.v
theories/L_Context8.v
theories/L_Moves.v
theories/L_Context9.v
theories/L_ContextNeg.v
theories/L_ContextBeyond.v
theories/P_Context.v
theories/S_Code.v
theories/L_Code.v
theories/P_Code.v
theories/M_Sock.v
theories/S_Sock.v
theories/L_Sock.v
theories/P_Sock.v
theories/M_Proto.v
theories/S_Proto.v
theories/L_Proto.v
theories/P_Proto.v
theories/M_Pool.v
theories/S_Pool.v
theories/L_Pool.v
theories/L_Pool2.v
theories/L_Pool3.v
theories/P_Pool.v
theories/M_Shor.v
theories/S_Shor.v
theories/L_Shor.v
theories/P_Shor.v
theories/L_Shor2.v
theories/L_Shor3.v
theories/L_Shor4.v
theories/P_Factor.v
theories/M_Top.v
theories/S_Top.v
theories/L_Top.v
theories/P_Top.v
theories/M_Manager.v
theories/S_Manager.v
theories/L_Manager.v
theories/P_Manager.v
theories/M_Net.v
theories/S_Net.v
theories/L_Net.v
theories/M_Worker.v
theories/M_Client.v
theories/S_Worker.v
theories/S_Client.v
theories/L_Worker1.v
theories/L_Worker2.v
theories/L_Transfer.v
theories/P_Transfer.v
theories/L_Worker3.v
theories/L_Worker4.v
theories/L_Job.v
theories/L_Worker5.v
theories/L_Worker6.v
theories/L_Worker7.v
theories/L_Worker8.v
theories/P_Worker.v
theories/L_Worker9.v
theories/L_Worker10.v
theories/L_Worker11.v
theories/L_Worker12.v
theories/P_Measured.v
theories/L_Worker13.v
theories/L_Client.v
theories/P_Client.v
theories/M_Examples.v
theories/S_Examples.v
theories/L_Resume.v
theories/P_Resume.v
theories/L_Example1.v
theories/L_Tail.v
theories/L_TailBorn.v
theories/L_Example2.v
theories/L_Example3.v
theories/P_Examples.v
theories/L_Grover1.v
theories/L_Grover2.v
theories/L_Grover3.v
theories/L_Grover4.v
theories/L_Grover5.v
theories/P_Grover.v
theories/M_ShorCircuit.v
theories/S_ShorR.v
theories/L_ShorCircuit.v
theories/L_ShorR.v
theories/L_ShorPeak.v
theories/L_ShorExact.v
theories/L_ShorReturn.v
theories/P_ShorCircuit.v
theories/L_Reduce1.v
theories/L_Reduce2.v
theories/L_Reduce3.v
theories/L_Reduce4.v
theories/L_Reduce5.v
theories/S_Reduce.v
theories/L_Reduce6.v
theories/P_Reduce.v
theories/M_Connect.v
theories/S_Connect.v
theories/L_Connect1.v
theories/L_Connect2.v
theories/L_Connect3.v
theories/L_Connect4.v
theories/L_Connect5.v
theories/P_Connect.v
theories/L_Reject.v
theories/L_Reject2.v
theories/P_Reject.v
theories/L_Lost.v
theories/P_Lost.v
theories/M_Server.v
theories/S_Server.v
theories/L_Server.v
theories/P_Server.v
theories/M_QfftExample.v
theories/S_QfftExample.v
theories/L_QfftExample.v
theories/P_QfftExample.v
theories/S_Signal.v
theories/L_Signal.v
theories/L_Signal2.v
theories/L_Signal3.v
theories/P_Signal.v
theories/M_Failure.v
theories/L_Failure1.v
theories/L_Failure2.v
theories/P_Failure.v
theories/M_Close.v
theories/S_Close.v
theories/L_Close.v
theories/P_Close.v
theories/M_Stop.v
theories/S_Stop.v
theories/L_Stop.v
theories/P_Stop.v
theories/M_Float.v
theories/S_Float.v
theories/L_Float1.v
theories/L_Float2.v
theories/L_Float3.v
theories/L_Float4.v
theories/L_Float5.v
theories/L_Float6.v
theories/L_Float7.v
theories/L_Float8.v
theories/P_Float.v
theories/M_Prints.v
theories/S_Prints.v
theories/L_Prints.v
theories/P_Prints.v
theories/M_Shared.v
theories/S_Shared.v
theories/L_Shared.v
theories/P_Shared.v
theories/M_FloatMeasure.v
theories/S_FloatMeasure.v
theories/L_FloatMeasure1.v
theories/L_FloatMeasure2.v
theories/L_FloatMeasure3.v
theories/P_FloatMeasure.v
theories/M_FloatRun.v
theories/S_FloatRun.v
theories/L_FloatRun1.v
theories/L_FloatRun2.v
theories/L_FloatRun3.v
theories/P_FloatRun.v
theories/M_CtxObj.v
theories/S_CtxObj.v
theories/L_CtxObj1.v
theories/L_CtxObj2.v
theories/P_CtxObj.v
theories/S_Order.v
theories/L_Order1.v
theories/L_Order2.v
theories/L_Order3.v
theories/L_Order4.v
theories/L_Order5.v
theories/L_Order6.v
theories/L_Order7.v
theories/L_Order8.v
theories/P_Order.v
theories/M_DistRun.v
theories/S_DistRun.v
theories/L_DistRun1.v
theories/L_DistRun2.v
theories/L_DistRun3.v
theories/L_DistRun4.v
theories/L_DistRun5.v
theories/P_DistRun.v
theories/M_Threads.v
theories/S_Threads.v
theories/L_Threads1.v
theories/L_Threads2.v
theories/L_Threads3.v
theories/P_Threads.v
theories/M_Swap.v
theories/S_Swap.v
theories/L_Swap.v
theories/P_Swap.v
theories/M_Runs.v
theories/S_Runs.v
theories/L_Runs1.v
theories/L_Runs2.v
theories/L_Runs3.v
theories/P_Runs.v
theories/M_Jobs.v
theories/S_Jobs.v
theories/L_Jobs1.v
theories/L_Jobs2.v
theories/L_Jobs3.v
theories/L_Jobs4.v
theories/L_Jobs5.v
theories/L_Jobs6.v
theories/L_Jobs7.v
theories/P_Jobs.v
theories/S_Clients.v
theories/L_Clients.v
theories/P_Clients.v
theories/M_CtxThreads.v
theories/S_CtxThreads.v
theories/L_CtxThreads.v
theories/L_CtxThreads2.v
theories/P_CtxThreads.v
theories/M_SvgText.v
theories/S_SvgText.v
theories/L_SvgText.v
theories/L_SvgText2.v
theories/P_SvgText.v
theories/M_StateType.v
theories/S_StateType.v
theories/L_StateType.v
theories/P_StateType.v
theories/M_CtxExample.v
theories/S_CtxExample.v
theories/L_CtxExample.v
theories/P_CtxExample.v
theories/M_StartState.v
theories/S_StartState.v
theories/L_StartState.v
theories/P_StartState.v
theories/M_Forced.v
theories/S_Forced.v
theories/L_Forced.v
theories/P_Forced.v
theories/M_Hello.v
theories/S_Hello.v
theories/L_Hello.v
theories/P_Hello.v
theories/M_Address.v
theories/S_Address.v
theories/L_Address.v
theories/P_Address.v
