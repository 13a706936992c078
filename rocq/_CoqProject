-Q theories Verif
theories/GoInt.v
theories/Mem.v
theories/Hash.v
theories/Amt.v
theories/Families.v
theories/BitsFacts.v
theories/Steps.v
theories/Tree.v
theories/Rep.v
theories/Paths.v
theories/Descend.v
theories/Insert.v
theories/Split.v
theories/Delete.v
theories/Remove.v
theories/Core.v
theories/Scan.v
theories/Spec.v
theories/HashFacts.v
theories/Order.v
theories/Heap.v
theories/SpecFacts.v
theories/Guards.v
theories/Client.v
theories/Types.v
theories/Refine.v
theories/RefineSet.v
theories/Instances.v
theories/Pack.v
theories/Sep.v
theories/Runs.v
theories/Observe.v
theories/ObserveFacts.v
theories/ObserveMap.v
theories/ObserveSet.v
theories/Readers.v
theories/ReadOps.v
theories/AnyFacts.v
theories/Refuted.v
theories/Props_Basic.v
theories/Props_Types.v
theories/Props_Ops.v
theories/Props_Mem.v
theories/GoTypes.v
theories/Props_Keys.v
theories/Levels.v
theories/Shape.v
theories/NoUnlink.v
theories/PathKeep.v
theories/ShapeRuns.v
theories/Props_Shape.v
theories/Weak.v
theories/Place.v
theories/WeakHeap.v
theories/Rekey.v
theories/Bag.v
theories/WeakRuns.v
theories/WeakTypes.v
theories/WeakMap.v
theories/WeakSet.v
theories/WeakSim.v
theories/WeakPack.v
theories/WeakExec.v
theories/Props_Weak.v
theories/Alike.v
theories/AlikePack.v
theories/AlikeStrong.v
theories/Props_Alike.v
theories/Broken.v
theories/Panics.v
theories/Props_Panic.v
theories/Programs.v
theories/ProgramFacts.v
theories/Nested.v
theories/NestedSim.v
theories/NestedRun.v
theories/NestedSet.v
theories/Tells.v
theories/Callbacks.v
theories/Raise.v
theories/FineTest.v
theories/Props_Callbacks.v
theories/Props_Nested.v
theories/ExactSpec.v
theories/Exact.v
theories/Props_Exact.v
theories/Lost.v
theories/Props_Lost.v
theories/MovedSpec.v
theories/Misplaced.v
theories/Props_Misplaced.v
theories/DepthSpec.v
theories/Depth.v
theories/Props_Depth.v
theories/Cost.v
theories/CostTypes.v
theories/CostPack.v
theories/Props_Cost.v
theories/Prog.v
theories/PAmt.v
theories/PFam.v
theories/ProgSim.v
theories/PClient.v
theories/ConcSpec.v
theories/Conc.v
theories/ReadOnly.v
theories/ConcClient.v
theories/ForkSpec.v
theories/Knows.v
theories/ConcMap.v
theories/ConcMapAll.v
theories/ConcSet.v
theories/ConcRuns.v
theories/Props_Conc.v
theories/ForkMap.v
theories/ForkSet.v
theories/Props_Fork.v
theories/MemorySpec.v
theories/Memory.v
theories/MemoryRuns.v
theories/Props_Memory.v
theories/AllocSpec.v
theories/Alloc.v
theories/AllocRuns.v
theories/Props_Alloc.v
theories/KeepSpec.v
theories/Keep.v
theories/KeepRuns.v
theories/Own.v
theories/OwnRuns.v
theories/Props_Keep.v
theories/Props_Own.v
theories/GcSpec.v
theories/Gc.v
theories/GcRuns.v
theories/Props_Gc.v
theories/TimeSpec.v
theories/Time.v
theories/TimeCore.v
theories/TimeTypes.v
theories/TimePack.v
theories/TimeRuns.v
theories/Props_Time.v
theories/MixedSpec.v
theories/MixedRules.v
theories/Mixed.v
theories/Props_Mixed.v
theories/LockSpec.v
theories/Lock.v
theories/LockRuns.v
theories/Props_Lock.v
theories/ReuseSpec.v
theories/Reuse.v
theories/ReuseProg.v
theories/ReuseRuns.v
theories/Props_Reuse.v
theories/EAmt.v
theories/MethSpec.v
theories/Meth.v
theories/MethRuns.v
theories/Props_Meth.v
theories/MethCount.v
theories/MethHash.v
theories/Props_MethCount.v
theories/LayoutSpec.v
theories/Layout.v
theories/LayoutMem.v
theories/Fits.v
theories/LayoutRuns.v
theories/Props_Layout.v
theories/Room.v
theories/Props_Room.v
theories/MethStored.v
theories/Props_MethStored.v
theories/FloatSpec.v
theories/DepFloat.v
theories/DepExact.v
theories/Props_Float.v
