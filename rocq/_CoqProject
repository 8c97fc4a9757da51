-Q theories Verif
theories/Rational/Model.v
theories/Rational/Spec.v
theories/Rational/Proofs.v
theories/Rational/Props.v
theories/SmallSort/Model.v
theories/SmallSort/Proofs.v
theories/SmallSort/Props.v
theories/BSearch/Model.v
theories/BSearch/Spec.v
theories/BSearch/Proofs.v
theories/BSearch/Props.v
theories/TimeConv/Model.v
theories/TimeConv/Spec.v
theories/TimeConv/Proofs.v
theories/TimeConv/Props.v
theories/Bits/Model.v
theories/Bits/Spec.v
theories/Bits/Proofs.v
theories/Bits/Props.v
theories/Cost/Model.v
theories/Cost/Spec.v
theories/Cost/Proofs.v
theories/Cost/Props.v
theories/ScopedMap/Model.v
theories/ScopedMap/Spec.v
theories/ScopedMap/Proofs.v
theories/ScopedMap/Props.v
theories/PersistentMap/Model.v
theories/PersistentMap/Spec.v
theories/PersistentMap/Proofs.v
theories/PersistentMap/Props.v
theories/FilterCombos/Model.v
theories/FilterCombos/Spec.v
theories/FilterCombos/Proofs.v
theories/FilterCombos/Props.v
theories/Semaphore/Model.v
theories/Semaphore/Spec.v
theories/Semaphore/Proofs.v
theories/Semaphore/Props.v
theories/Channel/Model.v
theories/Channel/Spec.v
theories/Channel/Proofs.v
theories/Channel/Props.v
theories/Alarm/Model.v
theories/Alarm/Spec.v
theories/Alarm/Proofs.v
theories/Alarm/Props.v
theories/Barrier/Model.v
theories/Barrier/Spec.v
theories/Barrier/Proofs.v
theories/Barrier/Props.v
theories/Park/Model.v
theories/Park/Spec.v
theories/Park/Proofs.v
theories/Park/Props.v
theories/OneShot/Spec.v
theories/OneShot/Model.v
theories/OneShot/Proofs.v
theories/OneShot/Props.v
theories/KFuture/Spec.v
theories/KFuture/Model.v
theories/KFuture/Proofs.v
theories/KFuture/Props.v
theories/WaitAny/Model.v
theories/WaitAny/Spec.v
theories/WaitAny/Proofs.v
theories/WaitAny/Props.v
theories/Once/Spec.v
theories/Once/Model.v
theories/Once/Proofs.v
theories/Once/Props.v
theories/OwnerLock/Model.v
theories/OwnerLock/Spec.v
theories/OwnerLock/Proofs.v
theories/OwnerLock/Props.v
theories/FastBlock/Model.v
theories/FastBlock/Spec.v
theories/FastBlock/Proofs.v
theories/FastBlock/Props.v
theories/BlockSpin/Model.v
theories/BlockSpin/Spec.v
theories/BlockSpin/Proofs.v
theories/BlockSpin/Props.v
theories/Futex/Spec.v
theories/Futex/Mutex.v
theories/Futex/MutexProofs.v
theories/Futex/Gen.v
theories/Futex/GoMutex.v
theories/Futex/GoProofs.v
theories/Futex/Backoff.v
theories/Futex/BackoffProofs.v
theories/Futex/Props.v
theories/McsLock/Model.v
theories/McsLock/Spec.v
theories/McsLock/Proofs.v
theories/McsLock/Props.v
theories/LockFree/Spec.v
theories/LockFree/StackModel.v
theories/LockFree/StackProofs.v
theories/LockFree/PropsStack.v
theories/LockFree/QueueModel.v
theories/LockFree/QueueProofs.v
theories/LockFree/PropsQueue.v
theories/Monitor/Model.v
theories/Monitor/Spec.v
theories/Monitor/Proofs.v
theories/Monitor/Props.v
theories/Monitor/PropsOrder.v
theories/DList/Model.v
theories/DList/Spec.v
theories/DList/Proofs.v
theories/DList/Props.v
theories/Collections/Model.v
theories/Collections/Spec.v
theories/Collections/Rep.v
theories/Collections/ProofsQ.v
theories/Collections/ProofsSeq.v
theories/Collections/Props.v
theories/Vector/Model.v
theories/Vector/Spec.v
theories/Vector/Proofs.v
theories/Vector/Props.v
theories/RtColl/Model.v
theories/RtColl/Spec.v
theories/RtColl/Proofs.v
theories/RtColl/Props.v
theories/ArraySub/Model.v
theories/ArraySub/Spec.v
theories/ArraySub/Proofs.v
theories/ArraySub/Props.v
theories/HeapBuckets/Model.v
theories/HeapBuckets/Spec.v
theories/HeapBuckets/Proofs.v
theories/HeapBuckets/Props.v
theories/HeapAlloc/Model.v
theories/HeapAlloc/Spec.v
theories/HeapAlloc/Inv.v
theories/HeapAlloc/Ops.v
theories/HeapAlloc/Proofs.v
theories/HeapAlloc/Props.v
theories/Prng/Model.v
theories/Prng/Spec.v
theories/Prng/Proofs.v
theories/Prng/Props.v
theories/Pair/Model.v
theories/Pair/Spec.v
theories/Pair/Proofs.v
theories/Pair/Props.v
theories/StrFind/Model.v
theories/StrFind/Spec.v
theories/StrFind/Proofs.v
theories/StrFind/Props.v
theories/StringHeap/Model.v
theories/StringHeap/Spec.v
theories/StringHeap/Proofs.v
theories/StringHeap/Ops.v
theories/StringHeap/Steps.v
theories/StringHeap/Assign.v
theories/StringHeap/Hist.v
theories/StringHeap/Props.v
theories/ReadyQueue/Model.v
theories/ReadyQueue/Spec.v
theories/ReadyQueue/Proofs.v
theories/ReadyQueue/Steps.v
theories/ReadyQueue/Props.v
theories/SchedLock/Model.v
theories/SchedLock/Spec.v
theories/SchedLock/Proofs.v
theories/SchedLock/Live.v
theories/SchedLock/Props.v
theories/FutureRC/Model.v
theories/FutureRC/Spec.v
theories/FutureRC/Proofs.v
theories/FutureRC/Props.v
theories/Future/Model.v
theories/Future/Spec.v
theories/Future/Proofs.v
theories/Future/Props.v
theories/SelectOr/Model.v
theories/SelectOr/Spec.v
theories/SelectOr/Proofs.v
theories/SelectOr/Props.v
theories/WhenTree/Model.v
theories/WhenTree/Spec.v
theories/WhenTree/Proofs.v
theories/WhenTree/Props.v
theories/SelectAnd/Model.v
theories/SelectAnd/Spec.v
theories/SelectAnd/Proofs.v
theories/SelectAnd/Props.v
theories/Snzi/Model.v
theories/Snzi/Spec.v
theories/Snzi/Proofs.v
theories/Snzi/Props.v
theories/TypeSubst/Model.v
theories/TypeSubst/Spec.v
theories/TypeSubst/Proofs.v
theories/TypeSubst/Props.v
theories/EvalConst/Model.v
theories/EvalConst/Spec.v
theories/EvalConst/Proofs.v
theories/EvalConst/Props.v
theories/AstRef/Model.v
theories/AstRef/Spec.v
theories/AstRef/Proofs.v
theories/AstRef/Props.v
theories/Mangle/Model.v
theories/Mangle/Spec.v
theories/Mangle/Proofs.v
theories/Mangle/Props.v
theories/Demangle/Model.v
theories/Demangle/Spec.v
theories/Demangle/Proofs.v
theories/Demangle/Props.v
theories/Unify/Model.v
theories/Unify/Spec.v
theories/Unify/Proofs.v
theories/Unify/Sound.v
theories/Unify/Vars.v
theories/Unify/Combine.v
theories/Unify/Props.v
theories/IntConst/Model.v
theories/IntConst/Spec.v
theories/IntConst/Proofs.v
theories/IntConst/Values.v
theories/IntConst/Wide.v
theories/IntConst/Props.v
theories/PthreadKeys/Model.v
theories/PthreadKeys/Spec.v
theories/PthreadKeys/Proofs.v
theories/PthreadKeys/Ends.v
theories/PthreadKeys/Props.v
theories/PthreadMutex/Model.v
theories/PthreadMutex/Spec.v
theories/PthreadMutex/Proofs.v
theories/PthreadMutex/Props.v
theories/PthreadCond/Model.v
theories/PthreadCond/Spec.v
theories/PthreadCond/Proofs.v
theories/PthreadCond/Props.v
theories/PthreadOnce/Model.v
theories/PthreadOnce/Spec.v
theories/PthreadOnce/Proofs.v
theories/PthreadOnce/Props.v
theories/CounterPtr/Model.v
theories/CounterPtr/Spec.v
theories/CounterPtr/Proofs.v
theories/CounterPtr/Props.v
theories/UniquePtr/Model.v
theories/UniquePtr/Spec.v
theories/UniquePtr/Proofs.v
theories/UniquePtr/Props.v
theories/Int128Io/Model.v
theories/Int128Io/Spec.v
theories/Int128Io/Proofs.v
theories/Int128Io/Props.v
theories/ActorQueue/Model.v
theories/ActorQueue/Spec.v
theories/ActorQueue/Proofs.v
theories/ActorQueue/Props.v
theories/Actor/Model.v
theories/Actor/Spec.v
theories/Actor/Proofs.v
theories/Actor/Props.v
theories/ActorStop/Model.v
theories/ActorStop/Spec.v
theories/ActorStop/Proofs.v
theories/ActorStop/Props.v
theories/Vector2/Model.v
theories/Vector2/Spec.v
theories/Vector2/Proofs.v
theories/Vector2/Props.v
theories/BasicTypes/Model.v
theories/BasicTypes/Spec.v
theories/BasicTypes/Proofs.v
theories/BasicTypes/Props.v
theories/CommonArith/Spec.v
theories/CommonArith/Props.v
theories/MutexStmt/Model.v
theories/MutexStmt/Spec.v
theories/MutexStmt/Proofs.v
theories/MutexStmt/Props.v
theories/IoRing/Model.v
theories/IoRing/Spec.v
theories/IoRing/Proofs.v
theories/IoRing/Props.v
theories/IoDrain/Model.v
theories/IoDrain/Spec.v
theories/IoDrain/Proofs.v
theories/IoDrain/Props.v
theories/IoArbiter/Model.v
theories/IoArbiter/Spec.v
theories/IoArbiter/Proofs.v
theories/IoArbiter/Props.v
theories/Except/Model.v
theories/Except/Spec.v
theories/Except/Proofs.v
theories/Except/Props.v
theories/GenLayout/Model.v
theories/GenLayout/Spec.v
theories/GenLayout/Proofs.v
theories/GenLayout/Props.v
theories/LevelExit/Model.v
theories/LevelExit/Spec.v
theories/LevelExit/Proofs.v
theories/LevelExit/Props.v
theories/InitCursor/Model.v
theories/InitCursor/Spec.v
theories/InitCursor/Proofs.v
theories/InitCursor/Props.v
theories/Coroutine/Model.v
theories/Coroutine/Spec.v
theories/Coroutine/Proofs.v
theories/Coroutine/Props.v
theories/MemberCalls/Model.v
theories/MemberCalls/Spec.v
theories/MemberCalls/Proofs.v
theories/MemberCalls/Props.v
theories/JumpCheck/Model.v
theories/JumpCheck/Spec.v
theories/JumpCheck/Proofs.v
theories/JumpCheck/Props.v
theories/SymTab/Model.v
theories/SymTab/Spec.v
theories/SymTab/Proofs.v
theories/SymTab/Special.v
theories/SymTab/Props.v
theories/Preempt/Model.v
theories/Preempt/Spec.v
theories/Preempt/Proofs.v
theories/Preempt/Props.v
theories/OStream/Model.v
theories/OStream/Spec.v
theories/OStream/Proofs.v
theories/OStream/Props.v
theories/CpuMap/Model.v
theories/CpuMap/Spec.v
theories/CpuMap/Range.v
theories/CpuMap/Proofs.v
theories/CpuMap/Props.v
theories/Prune/Model.v
theories/Prune/Spec.v
theories/Prune/Proofs.v
theories/Prune/Props.v
theories/GenType/Model.v
theories/GenType/Spec.v
theories/GenType/Proofs.v
theories/GenType/Props.v
theories/SpecCost/Model.v
theories/SpecCost/Spec.v
theories/SpecCost/Proofs.v
theories/SpecCost/Props.v
theories/Config/Model.v
theories/Config/Spec.v
theories/Config/Proofs.v
theories/Config/Props.v
theories/Args/Model.v
theories/Args/Spec.v
theories/Args/Num.v
theories/Args/Help.v
theories/Args/Props.v
theories/Rename/Model.v
theories/Rename/Spec.v
theories/Rename/Proofs.v
theories/Rename/Props.v
theories/Leb/Model.v
theories/Leb/Spec.v
theories/Leb/Proofs.v
theories/Leb/Props.v
theories/OldLocks/Model.v
theories/OldLocks/Spec.v
theories/OldLocks/Proofs.v
theories/OldLocks/Props.v
theories/StrStream/Model.v
theories/StrStream/Spec.v
theories/StrStream/Proofs.v
theories/StrStream/Props.v
theories/Virtual/Model.v
theories/Virtual/Spec.v
theories/Virtual/Proofs.v
theories/Virtual/Props.v
theories/Typedefs/Model.v
theories/Typedefs/Spec.v
theories/Typedefs/Proofs.v
theories/Typedefs/Props.v
