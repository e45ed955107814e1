-Q theories Verif
theories/AtomicSpec.v
theories/Atomics.v
theories/AtomicsProofs.v
theories/BitDerive.v
theories/BitDeriveProofs.v
theories/BitDeriveSpec.v
theories/Bitfield.v
theories/BitfieldProofs.v
theories/Boot.v
theories/BootProofs.v
theories/BootSpec.v
theories/Cfg.v
theories/CfgSpec.v
theories/Drain.v
theories/DrainProofs.v
theories/DrainSpec.v
theories/Exec.v
theories/ExecProofs.v
theories/ExecSpec.v
theories/Fiber.v
theories/FiberProofs.v
theories/FiberSpec.v
theories/FutureProofs.v
theories/GlobalAlloc.v
theories/GlobalAllocProofs.v
theories/GlobalAllocSpec.v
theories/Heap.v
theories/HeapConc.v
theories/HeapConcFull.v
theories/HeapConcProofs.v
theories/HeapConcQuiet.v
theories/HeapConcSpec.v
theories/HeapContents.v
theories/HeapProofs.v
theories/HeapSpec.v
theories/HeapUse.v
theories/HeapUseLinks.v
theories/HeapUseProofs.v
theories/HeapUseSpec.v
theories/HeapUseTurns.v
theories/HeapUseWait.v
theories/Inventory.v
theories/InventorySpec.v
theories/LinSpec.v
theories/LinkedList.v
theories/LinkedListProofs.v
theories/LinkedListSpec.v
theories/LockFree.v
theories/LockFreeSpec.v
theories/Mutex.v
theories/MutexDrop.v
theories/MutexDropProofs.v
theories/MutexDropSpec.v
theories/MutexLeak.v
theories/MutexList.v
theories/MutexProofs.v
theories/MutexRun.v
theories/MutexSafe.v
theories/MutexSpec.v
theories/MutexWake.v
theories/Names.v
theories/Oneshot.v
theories/OneshotMain.v
theories/OneshotProofs.v
theories/OneshotRx.v
theories/OneshotSpec.v
theories/OneshotTx.v
theories/P01_Words.v
theories/P02_Heap.v
theories/P03_Treiber.v
theories/P04_List.v
theories/P05_Stream.v
theories/P06_Oneshot.v
theories/P07_Pulse.v
theories/P08_Ring.v
theories/P09_Mutex.v
theories/P10_Soft.v
theories/P11_Thread.v
theories/P12_ProcLoop.v
theories/P13_Cfg.v
theories/P14_Inventory.v
theories/P15_Future.v
theories/P16_Streams.v
theories/P17_Pulses.v
theories/P18_Names.v
theories/P19_Weak.v
theories/P20_WeakList.v
theories/P21_Exec.v
theories/P22_WeakMutex.v
theories/P23_WeakPool.v
theories/P24_RegTok.v
theories/P25_RegIndex.v
theories/P26_Tasks.v
theories/P27_Print.v
theories/P28_Panic.v
theories/P29_Tokens.v
theories/P30_Periph.v
theories/P31_PeriphMap.v
theories/P32_PoolFull.v
theories/P33_HeapConc.v
theories/P34_ThrPool.v
theories/P35_BitDerive.v
theories/P36_GlobalAlloc.v
theories/P37_RegTraits.v
theories/P38_RegMacro.v
theories/P39_Boot.v
theories/P40_HeapUse.v
theories/P41_HeapWait.v
theories/P42_LockFree.v
theories/P43_MutexDrop.v
theories/P44_RegVariants.v
theories/Panic.v
theories/PanicProofs.v
theories/Periph.v
theories/PeriphMap.v
theories/PeriphMapComplete.v
theories/PeriphMapProofs.v
theories/PeriphMapSpec.v
theories/PeriphProofs.v
theories/PeriphSpec.v
theories/PoolFull.v
theories/PoolFullHw.v
theories/PoolFullSpec.v
theories/Print.v
theories/PrintProofs.v
theories/PrintSpec.v
theories/ProcLoop.v
theories/ProcLoopSpec.v
theories/Pulse.v
theories/PulseMain.v
theories/PulseProofs.v
theories/PulseRx.v
theories/PulseSpec.v
theories/PulseStreamProofs.v
theories/PulseTx.v
theories/RaceProofs.v
theories/RaceSpec.v
theories/RegIndex.v
theories/RegIndexProofs.v
theories/RegIndexSpec.v
theories/RegMacro.v
theories/RegMacroProofs.v
theories/RegMacroSpec.v
theories/RegProofs.v
theories/RegTok.v
theories/RegTokProofs.v
theories/RegTokSpec.v
theories/RegTraits.v
theories/RegTraitsProofs.v
theories/RegTraitsSpec.v
theories/RegVariants.v
theories/RegVariantsProofs.v
theories/Ring.v
theories/RingHist.v
theories/RingLife.v
theories/RingMain.v
theories/RingQueue.v
theories/RingRxWaker.v
theories/RingSpec.v
theories/RingStreamProofs.v
theories/RingTxWaker.v
theories/RingWord.v
theories/Soft.v
theories/SoftCredit.v
theories/SoftInv.v
theories/SoftInv2.v
theories/SoftProofs.v
theories/SoftRun.v
theories/SoftSpec.v
theories/Spsc.v
theories/SpscProofs.v
theories/SpscWp.v
theories/Stream.v
theories/StreamProofs.v
theories/StreamSpec.v
theories/Tasks.v
theories/TasksProofs.v
theories/TasksSpec.v
theories/ThrPool.v
theories/ThrPoolProofs.v
theories/ThrPoolSpec.v
theories/Thread.v
theories/ThreadSpec.v
theories/Tok.v
theories/TokProofs.v
theories/TokSpec.v
theories/Treiber.v
theories/TreiberProofs.v
theories/TreiberSoft.v
theories/Weak.v
theories/WeakHist.v
theories/WeakList.v
theories/WeakListProofs.v
theories/WeakListSafe.v
theories/WeakMutex.v
theories/WeakOneshot.v
theories/WeakOneshotHist.v
theories/WeakPool.v
theories/WeakPoolProofs.v
theories/WeakPoolSolo.v
theories/WeakProofs.v
theories/WeakPulse.v
theories/WeakPulseHist.v
theories/WeakRing.v
theories/WeakRingHist.v
theories/WeakSC.v
theories/WeakSlots.v
theories/WeakSpec.v
