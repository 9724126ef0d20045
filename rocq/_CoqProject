-Q theories Verif
theories/Model/Base.v
theories/Model/Arith.v
theories/Model/ArithReal.v
theories/Model/ArithMod.v
theories/Model/Juce.v
theories/Model/ComplexBuffer.v
theories/Model/ComplexBufferHeap.v
theories/Model/FFT.v
theories/Model/FFTDecomposition.v
theories/Model/DecompositionSchedule.v
theories/Model/FrequencyDelayLine.v
theories/Model/SplitBlock.v
theories/Model/CircularBuffer.v
theories/Model/Float32.v
theories/Model/Partitioning.v
theories/Model/PartitionSchemes.v
theories/Model/UniformPartitionedConvolver.v
theories/Model/TimeDistributedUPC.v
theories/Model/TimeDistributedUPCMulti.v
theories/Model/TimeDistributedNUPC.v
theories/Model/Convolver.v
theories/Spec/Transform.v
theories/Spec/Compose.v
theories/Spec/Buffers.v
theories/Spec/Signal.v
theories/Spec/RealFFT.v
theories/Proofs/Lists.v
theories/Proofs/ComplexAlg.v
theories/Proofs/Butterfly.v
theories/Proofs/FFTProof.v
theories/Proofs/Decomp.v
theories/Proofs/Schedule.v
theories/Props/FFTProps.v
theories/Proofs/Blocks.v
theories/Proofs/Delay.v
theories/Props/UtilProps.v
theories/Proofs/FloatProof.v
theories/Proofs/RealFFTProof.v
theories/Proofs/Streams.v
theories/Proofs/UPCProof.v
theories/Props/UPCProps.v
theories/Props/MultiProps.v
theories/Proofs/TDUPCProof.v
theories/Proofs/TDUPCStream.v
theories/Proofs/MultiProof.v
theories/Spec/Layout.v
theories/Proofs/PartitionProof.v
theories/Props/PartitionProps.v
theories/Spec/Routing.v
theories/Proofs/NUPCProof.v
theories/Proofs/ConvolverProof.v
theories/Props/ConvolverProps.v
theories/Model/VisitorQueue.v
theories/Spec/Fifo.v
theories/Proofs/QueueProof.v
theories/Props/QueueProps.v
theories/Model/SmoothedValue.v
theories/Model/ConvolutionEngine.v
theories/Spec/Engine.v
theories/Proofs/EngineProof.v
theories/Proofs/SmoothProof.v
theories/Proofs/FloatMono.v
theories/Proofs/FadeProof.v
theories/Proofs/EngineInv.v
theories/Proofs/EngineFront.v
theories/Proofs/EngineCalm.v
theories/Proofs/EngineRoom.v
theories/Proofs/EngineRun.v
theories/Spec/Together.v
theories/Proofs/EngineOrigin.v
theories/Proofs/EngineFade.v
theories/Proofs/EngineMore.v
theories/Proofs/EngineLevels.v
theories/Props/EngineProps.v
theories/Proofs/FadeExact.v
theories/Props/FadeProps.v
theories/Props/SwitchProps.v
theories/Props/WholeProps.v
theories/Model/Loader.v
theories/Spec/Loading.v
theories/Proofs/LoaderProof.v
theories/Proofs/LoaderFate.v
theories/Proofs/LoaderMore.v
theories/Proofs/LoaderTrace.v
theories/Proofs/LoaderLive.v
theories/Props/LoaderProps.v
theories/Props/TogetherProps.v
theories/Model/GarciaOptimal.v
theories/Spec/Optimal.v
theories/Proofs/GarciaProof.v
theories/Proofs/GarciaSearch.v
theories/Proofs/GarciaTables.v
theories/Props/OptimalProps.v
theories/Model/ArithSingle.v
theories/Spec/Rounded.v
theories/Spec/Precision.v
theories/Proofs/SingleProof.v
theories/Proofs/SingleCompute.v
theories/Props/RoundedProps.v
theories/Proofs/Norms.v
theories/Proofs/SingleFFT.v
theories/Proofs/SingleTD.v
theories/Proofs/StreamsQ.v
theories/Proofs/SingleStreams.v
theories/Proofs/SingleRoots.v
theories/Props/PrecisionProps.v
theories/Proofs/UPCFloat.v
theories/Proofs/SingleUPC.v
theories/Proofs/SingleReal.v
theories/Props/PrecisionUPCProps.v
theories/Proofs/NUPCFloat.v
theories/Proofs/NUPCMake.v
theories/Spec/PrecisionScheme.v
theories/Proofs/SingleNUPC.v
theories/Proofs/ConvolverFloat.v
theories/Props/PrecisionSchemeProps.v
theories/Spec/Memory.v
theories/Proofs/Param.v
theories/Proofs/Stamp.v
theories/Proofs/MemoryProof.v
theories/Model/ArithIEEE.v
theories/Props/MemoryProps.v
theories/Proofs/EngineGains.v
theories/Spec/PrecisionEngine.v
theories/Props/PrecisionEngineProps.v
theories/Props/RestartProps.v
theories/Spec/Linear.v
theories/Props/LinearProps.v
theories/Spec/Twins.v
theories/Proofs/EngineMemory.v
theories/Props/EngineMemoryProps.v
theories/Spec/Schedules.v
theories/Props/BackgroundProps.v
theories/Spec/Superposition.v
theories/Proofs/EngineFamily.v
theories/Proofs/ConvolverFamily.v
theories/Props/EngineLinearProps.v
theories/Spec/Overflow.v
theories/Proofs/Ext.v
theories/Proofs/ExtBounds.v
theories/Proofs/ExtOut.v
theories/Proofs/ExtRun.v
theories/Proofs/ExtParam.v
theories/Proofs/IEEESingle.v
theories/Proofs/OverflowProof.v
theories/Proofs/OverflowExample.v
theories/Props/OverflowProps.v
theories/Proofs/EngineHet.v
theories/Proofs/IEEESmooth.v
theories/Props/OverflowEngineProps.v
theories/Model/IntArith.v
theories/Proofs/IntProof.v
theories/Proofs/IntLink.v
theories/Props/IntProps.v
theories/Props/OverflowChangeProps.v
theories/Model/IntLoops.v
theories/Proofs/IntLoopsProof.v
theories/Props/IntCallProps.v
theories/Spec/OverflowLoad.v
theories/Props/OverflowLoadProps.v
theories/Props/CutProps.v
theories/Props/EngineCausalProps.v
theories/Props/BoundProps.v
theories/Props/HostProps.v
theories/Props/ClickProps.v
