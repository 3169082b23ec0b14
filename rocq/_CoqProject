-Q theories Verif
theories/Base.v
theories/FenwickModel.v
theories/FenwickSpec.v
theories/FenwickProofs.v
theories/FenwickProps.v
theories/LruModel.v
theories/LruSpec.v
theories/LruProofs.v
theories/LruProps.v
theories/LruThrowModel.v
theories/LruThrowSpec.v
theories/LruThrowProofs.v
theories/LruThrowProps.v
theories/LruHookModel.v
theories/LruHookSpec.v
theories/LruHookProofs.v
theories/LruHookProps.v
theories/UnionModel.v
theories/UnionSpec.v
theories/UnionProofs.v
theories/UnionProps.v
theories/UnionThrowModel.v
theories/UnionThrowSpec.v
theories/UnionThrowProofs.v
theories/UnionThrowProps.v
theories/AvlModel.v
theories/AvlSpec.v
theories/AvlProofs.v
theories/AvlWorstProofs.v
theories/AvlProps.v
theories/AvlThrowModel.v
theories/AvlThrowSpec.v
theories/AvlThrowProofs.v
theories/AvlThrowProps.v
theories/TraverseModel.v
theories/TraverseSpec.v
theories/TraverseProofs.v
theories/TraverseProps.v
theories/KaryModel.v
theories/KarySpec.v
theories/KaryProofs.v
theories/KaryProps.v
theories/BnodeModel.v
theories/BnodeSpec.v
theories/BnodeProofs.v
theories/BnodeProps.v
theories/HeapModel.v
theories/HeapSpec.v
theories/HeapProofs.v
theories/HeapProps.v
theories/SegmentModel.v
theories/SegmentSpec.v
theories/SegmentProofs.v
theories/SegmentProps.v
theories/Cint.v
theories/MissingModel.v
theories/MissingSpec.v
theories/MissingProofs.v
theories/MissingProps.v
theories/SubModel.v
theories/SubSpec.v
theories/SubProofs.v
theories/SubProps.v
theories/ToolsModel.v
theories/ToolsSpec.v
theories/ToolsProofs.v
theories/ToolsProps.v
theories/TokenModel.v
theories/TokenSpec.v
theories/TokenProofs.v
theories/TokenProps.v
theories/CsvModel.v
theories/CsvSpec.v
theories/CsvProofs.v
theories/CsvProps.v
theories/CommandModel.v
theories/CommandSpec.v
theories/CommandProofs.v
theories/CommandProps.v
theories/CommandCopyModel.v
theories/CommandCopySpec.v
theories/CommandCopyProofs.v
theories/CommandCopyProps.v
theories/SemaphoreModel.v
theories/SemaphoreSpec.v
theories/SemaphoreProofs.v
theories/SemaphoreProps.v
theories/MsgQueueModel.v
theories/MsgQueueSpec.v
theories/MsgQueueProofs.v
theories/MsgQueueProps.v
theories/PointerOrderModel.v
theories/PointerOrderSpec.v
theories/PointerOrderProofs.v
theories/PointerOrderProps.v
theories/ThreadModel.v
theories/ThreadSpec.v
theories/ThreadProofs.v
theories/ThreadProps.v
theories/TimerModel.v
theories/TimerSpec.v
theories/TimerProofs.v
theories/TimerProps.v
theories/LockableModel.v
theories/LockableProofs.v
theories/LockableProps.v
theories/QueueEndModel.v
theories/QueueEndSpec.v
theories/QueueEndProofs.v
theories/QueueEndProps.v
theories/WalkModel.v
theories/WalkSpec.v
theories/WalkProofs.v
theories/WalkProps.v
theories/StampModel.v
theories/StampSpec.v
theories/StampProofs.v
theories/StampProps.v
theories/QueueHookModel.v
theories/QueueHookSpec.v
theories/QueueHookProofs.v
theories/QueueHookProps.v
theories/TimerHookModel.v
theories/TimerHookSpec.v
theories/TimerHookProofs.v
theories/TimerHookProps.v
theories/LruIterModel.v
theories/LruIterSpec.v
theories/LruIterProofs.v
theories/LruIterProps.v
theories/BnodeNavModel.v
theories/BnodeNavSpec.v
theories/BnodeNavProofs.v
theories/BnodeNavProps.v
theories/BnodeWalkModel.v
theories/BnodeWalkSpec.v
theories/BnodeWalkProofs.v
theories/BnodeWalkProps.v
theories/AvlRefModel.v
theories/AvlRefSpec.v
theories/AvlRefProofs.v
theories/AvlRefProps.v
theories/KaryIterModel.v
theories/KaryIterSpec.v
theories/KaryIterProofs.v
theories/KaryIterProps.v
theories/KaryWalkModel.v
theories/KaryWalkSpec.v
theories/KaryWalkProofs.v
theories/KaryWalkProps.v
theories/KaryHeapModel.v
theories/KaryHeapSpec.v
theories/KaryHeapProofs.v
theories/KaryHeapProps.v
theories/DoubleModel.v
theories/DoubleSpec.v
theories/DoubleProofs.v
theories/DoubleRootProofs.v
theories/DoubleProps.v
theories/DoubleSumProofs.v
theories/DoubleSumProps.v
theories/DoubleSearchModel.v
theories/DoubleSearchSpec.v
theories/DoubleSearchProofs.v
theories/DoubleSearchProps.v
theories/FenwickSignedModel.v
theories/FenwickSignedSpec.v
theories/FenwickSignedProofs.v
theories/FenwickSignedProps.v
theories/SegmentOrderSpec.v
theories/SegmentOrderProofs.v
theories/SegmentDoubleProofs.v
theories/SegmentOrderProps.v
theories/FenwickErrorSpec.v
theories/FenwickErrorProofs.v
theories/MaxSumErrorProofs.v
theories/FenwickErrorProps.v
theories/FenwickThrowSpec.v
theories/FenwickThrowModel.v
theories/FenwickThrowProofs.v
theories/FenwickThrowProps.v
theories/SegmentBracketSpec.v
theories/SegmentBracketProofs.v
theories/SegmentBracketProps.v
theories/SegmentThrowModel.v
theories/SegmentThrowSpec.v
theories/SegmentThrowProofs.v
theories/SegmentThrowElems.v
theories/SegmentThrowProps.v
theories/TraverseThrowModel.v
theories/TraverseThrowSpec.v
theories/TraverseThrowProofs.v
theories/TraverseThrowProps.v
theories/SegmentEmptySpec.v
theories/SegmentEmptyProofs.v
theories/SegmentEmptyProps.v
theories/HeapThrowModel.v
theories/HeapThrowSpec.v
theories/HeapThrowProofs.v
theories/HeapThrowProps.v
