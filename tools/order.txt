Base
S_Bits
M_Bits
L_Bits
P_Bits
M_Kron
S_Kron
L_Kron
L_Kron2
L_Kron3
P_Kron
L_Alg
M_Ops
S_Ops
L_Ops1
L_Ops2
L_Ops3
L_Ops4
BaseR
M_Gates
L_Gates
P_Ops
M_Feed
S_Feed
L_Feed
L_Feed2
P_Feed
M_Measure
S_Measure
L_Measure1
L_Measure2
L_Measure3
L_Measure4
L_Measure5
L_Measure6
P_Measure
M_Func
S_Func
L_Func
L_Func2
P_Func
M_Int
S_Int
L_Int1
L_Int2
L_Int3
P_Int
M_Graph
S_Graph
L_Graph1
L_Graph2
L_Graph3
L_Graph4
L_Graph5
L_Graph6
L_Graph7
L_Graph8
L_Graph9
L_Graph10
L_Graph11
L_Graph12
P_Graph
S_Malformed
L_Malformed1
L_Malformed2
P_Malformed
M_Print
S_Print
L_Print
L_Print2
P_Print
M_Svg
S_Svg
L_Svg
P_Svg
M_Context
S_Context
L_Fourier
L_Sinks
L_Grow1
S_Born
L_Born
P_Born
L_Grow2
L_Context1
L_Context2
L_Context3
L_Context4
L_Context5
L_QFFT1
L_QFFT2
L_QFFT3
L_QFFT4
L_QFFT5
L_DftNorm
M_ContextR
S_ContextR
L_Context6
L_QFFT6
L_Context7
L_Context8
L_Moves
L_Context9
L_ContextNeg
L_ContextBeyond
P_Context
S_Code
L_Code
P_Code
M_Sock
S_Sock
L_Sock
P_Sock
M_Proto
S_Proto
L_Proto
P_Proto
M_Pool
S_Pool
L_Pool
L_Pool2
L_Pool3
P_Pool
M_Shor
S_Shor
L_Shor
P_Shor
L_Shor2
L_Shor3
L_Shor4
P_Factor
M_Top
S_Top
L_Top
P_Top
M_Manager
S_Manager
L_Manager
P_Manager
M_Net
S_Net
L_Net
M_Worker
M_Client
S_Worker
S_Client
L_Worker1
L_Worker2
L_Transfer
P_Transfer
L_Worker3
L_Worker4
L_Job
L_Worker5
L_Worker6
L_Worker7
L_Worker8
P_Worker
L_Worker9
L_Worker10
L_Worker11
L_Worker12
P_Measured
L_Worker13
L_Client
P_Client
M_Examples
S_Examples
L_Resume
P_Resume
L_Example1
L_Tail
L_TailBorn
L_Example2
L_Example3
P_Examples
L_Grover1
L_Grover2
L_Grover3
L_Grover4
L_Grover5
P_Grover
M_ShorCircuit
S_ShorR
L_ShorCircuit
L_ShorR
L_ShorPeak
L_ShorExact
L_ShorReturn
P_ShorCircuit
L_Reduce1
L_Reduce2
L_Reduce3
L_Reduce4
L_Reduce5
S_Reduce
L_Reduce6
P_Reduce
M_Connect
S_Connect
L_Connect1
L_Connect2
L_Connect3
L_Connect4
L_Connect5
P_Connect
L_Reject
L_Reject2
P_Reject
L_Lost
P_Lost
M_Server
S_Server
L_Server
P_Server
M_QfftExample
S_QfftExample
L_QfftExample
P_QfftExample
S_Signal
L_Signal
L_Signal2
L_Signal3
P_Signal
M_Failure
L_Failure1
L_Failure2
P_Failure
M_Close
S_Close
L_Close
P_Close
M_Stop
S_Stop
L_Stop
P_Stop
M_Float
S_Float
L_Float1
L_Float2
L_Float3
L_Float4
L_Float5
L_Float6
L_Float7
L_Float8
P_Float
M_Prints
S_Prints
L_Prints
P_Prints
M_Shared
S_Shared
L_Shared
P_Shared
M_FloatMeasure
S_FloatMeasure
L_FloatMeasure1
L_FloatMeasure2
L_FloatMeasure3
P_FloatMeasure
M_FloatRun
S_FloatRun
L_FloatRun1
L_FloatRun2
L_FloatRun3
P_FloatRun
M_CtxObj
S_CtxObj
L_CtxObj1
L_CtxObj2
P_CtxObj
S_Order
L_Order1
L_Order2
L_Order3
L_Order4
L_Order5
L_Order6
L_Order7
L_Order8
P_Order
M_DistRun
S_DistRun
L_DistRun1
L_DistRun2
L_DistRun3
L_DistRun4
L_DistRun5
P_DistRun
M_Threads
S_Threads
L_Threads1
L_Threads2
L_Threads3
P_Threads
M_Swap
S_Swap
L_Swap
P_Swap
M_Runs
S_Runs
L_Runs1
L_Runs2
L_Runs3
P_Runs
M_Jobs
S_Jobs
L_Jobs1
L_Jobs2
L_Jobs3
L_Jobs4
L_Jobs5
L_Jobs6
L_Jobs7
P_Jobs
S_Clients
L_Clients
P_Clients
M_CtxThreads
S_CtxThreads
L_CtxThreads
L_CtxThreads2
P_CtxThreads
M_SvgText
S_SvgText
L_SvgText
L_SvgText2
P_SvgText
M_StateType
S_StateType
L_StateType
P_StateType
M_CtxExample
S_CtxExample
L_CtxExample
P_CtxExample
M_StartState
S_StartState
L_StartState
P_StartState
M_Forced
S_Forced
L_Forced
P_Forced
M_Hello
S_Hello
L_Hello
P_Hello
M_Address
S_Address
L_Address
P_Address
