-Q theories Verif

theories/Aliasing/Model.v
theories/Aliasing/Props.v
theories/Aliasing/Spec.v
theories/Aliasing/Wrapper.v
theories/Async/Model.v
theories/Async/Proofs.v
theories/Async/Proofs2.v
theories/Async/Props.v
theories/Async/Spec.v
theories/BazelLabel/Model.v
theories/BazelLabel/Props.v
theories/BazelLabel/Spec.v
theories/Bridge/Model.v
theories/Bridge/Proofs.v
theories/Bridge/Props.v
theories/Bridge/Spec.v
theories/CallOrder/Model.v
theories/CallOrder/Proofs.v
theories/CallOrder/Props.v
theories/CallOrder/Spec.v
theories/Callable/Model.v
theories/Callable/Proofs.v
theories/Callable/Proofs2.v
theories/Callable/Props.v
theories/Callable/Spec.v
theories/Canon/Model.v
theories/Canon/Props.v
theories/Canon/Spec.v
theories/CcShared/Account.v
theories/CcShared/Counts.v
theories/CcShared/Model.v
theories/CcShared/Pointers.v
theories/CcShared/Progress.v
theories/CcShared/Props.v
theories/CcShared/Spec.v
theories/CcString/Model.v
theories/CcString/Proofs.v
theories/CcString/Proofs2.v
theories/CcString/Props.v
theories/CcString/Spec.v
theories/CcVector/Heap.v
theories/CcVector/Model.v
theories/CcVector/Ops.v
theories/CcVector/Proofs.v
theories/CcVector/Props.v
theories/CcVector/Run.v
theories/CcVector/Spec.v
theories/CodeGen/Model.v
theories/CodeGen/Props.v
theories/CodeGen/Spec.v
theories/CodeGen/Words.v
theories/Common/Btree.v
theories/Common/Replace.v
theories/Common/Str.v
theories/CppCall/Model.v
theories/CppCall/Names.v
theories/CppCall/NamesProofs.v
theories/CppCall/Proofs.v
theories/CppCall/Proofs2.v
theories/CppCall/Proofs3.v
theories/CppCall/Proofs4.v
theories/CppCall/Props.v
theories/CppCall/Spec.v
theories/CppClass/MemSwap.v
theories/CppClass/Model.v
theories/CppClass/Proofs.v
theories/CppClass/Props.v
theories/CppClass/Spec.v
theories/Ctor/Model.v
theories/Ctor/Proofs.v
theories/Ctor/Proofs2.v
theories/Ctor/Proofs3.v
theories/Ctor/Proofs4.v
theories/Ctor/Props.v
theories/Ctor/Spec.v
theories/DynFormat/Model.v
theories/DynFormat/Props.v
theories/DynFormat/Spec.v
theories/ErrorReport/Hide.v
theories/ErrorReport/HideProofs.v
theories/ErrorReport/HideSpec.v
theories/ErrorReport/Model.v
theories/ErrorReport/Proofs.v
theories/ErrorReport/Props.v
theories/ErrorReport/Spec.v
theories/Features/Model.v
theories/Features/Props.v
theories/Features/Spec.v
theories/FnLifetimes/Model.v
theories/FnLifetimes/Proofs.v
theories/FnLifetimes/Proofs2.v
theories/FnLifetimes/Proofs3.v
theories/FnLifetimes/Props.v
theories/FnLifetimes/Spec.v
theories/Forward/Model.v
theories/Forward/Names.v
theories/Forward/Proofs.v
theories/Forward/Props.v
theories/Forward/Spec.v
theories/Inherit/Model.v
theories/Inherit/Proofs.v
theories/Inherit/Proofs2.v
theories/Inherit/Proofs3.v
theories/Inherit/Props.v
theories/Inherit/Spec.v
theories/InlineCpp/Hash.v
theories/InlineCpp/Model.v
theories/InlineCpp/Names.v
theories/InlineCpp/Proofs.v
theories/InlineCpp/Proofs2.v
theories/InlineCpp/Proofs3.v
theories/InlineCpp/Proofs4.v
theories/InlineCpp/Props.v
theories/InlineCpp/Props2.v
theories/InlineCpp/Spec.v
theories/Interner/Model.v
theories/Interner/Props.v
theories/Interner/Spec.v
theories/Ints/Model.v
theories/Ints/Props.v
theories/Ints/Spec.v
theories/IrTree/Model.v
theories/IrTree/Proofs.v
theories/IrTree/Proofs2.v
theories/IrTree/Proofs3.v
theories/IrTree/Proofs4.v
theories/IrTree/Props.v
theories/IrTree/Spec.v
theories/IterAdapter/Model.v
theories/IterAdapter/Props.v
theories/LifetimeDecl/Model.v
theories/LifetimeDecl/Proofs.v
theories/LifetimeDecl/Proofs2.v
theories/LifetimeDecl/Proofs3.v
theories/LifetimeDecl/Proofs4.v
theories/LifetimeDecl/Proofs5.v
theories/LifetimeDecl/Proofs6.v
theories/LifetimeDecl/Props.v
theories/LifetimeDecl/Spec.v
theories/LifetimeNames/Bound.v
theories/LifetimeNames/Func.v
theories/LifetimeNames/Model.v
theories/LifetimeNames/Names.v
theories/LifetimeNames/Props.v
theories/LifetimeNames/Spec.v
theories/LifetimeNames/Transform.v
theories/Lifetimes/Apply.v
theories/Lifetimes/Model.v
theories/Lifetimes/Reach.v
theories/Lifetimes/Spec.v
theories/Lifetimes/Subst.v
theories/Lossy/Model.v
theories/Lossy/Ops.v
theories/Lossy/Proofs.v
theories/Lossy/Props.v
theories/Lossy/Spec.v
theories/Memoized/Model.v
theories/Memoized/Proofs.v
theories/Memoized/Props.v
theories/Memoized/Spec.v
theories/ModNames/Model.v
theories/ModNames/Proofs.v
theories/ModNames/Props.v
theories/ModNames/Spec.v
theories/Movable/Model.v
theories/Movable/Proofs.v
theories/Movable/Props.v
theories/Movable/Spec.v
theories/MustBind/Model.v
theories/MustBind/Proofs.v
theories/MustBind/Proofs2.v
theories/MustBind/Props.v
theories/MustBind/Spec.v
theories/Namespaces/Merge.v
theories/Namespaces/Model.v
theories/Namespaces/Props.v
theories/Namespaces/Spec.v
theories/Namespaces/Trie.v
theories/NsEmit/Model.v
theories/NsEmit/Order.v
theories/NsEmit/Proofs.v
theories/NsEmit/Proofs2.v
theories/NsEmit/Proofs3.v
theories/NsEmit/Proofs4.v
theories/NsEmit/Proofs5.v
theories/NsEmit/Props.v
theories/NsEmit/Spec.v
theories/NullInfer/Infer.v
theories/NullInfer/Merge.v
theories/NullInfer/Model.v
theories/NullInfer/Props.v
theories/NullInfer/Spec.v
theories/NullState/Model.v
theories/NullState/Proofs.v
theories/NullState/Proofs2.v
theories/NullState/Props.v
theories/NullState/Spec.v
theories/Overloads/Model.v
theories/Overloads/Proofs.v
theories/Overloads/Props.v
theories/Overloads/Spec.v
theories/Own/Own.v
theories/PointsTo/Model.v
theories/PointsTo/Proofs.v
theories/PointsTo/Props.v
theories/PointsTo/Spec.v
theories/PtTransfer/Calls.v
theories/PtTransfer/Model.v
theories/PtTransfer/Proofs.v
theories/PtTransfer/Proofs2.v
theories/PtTransfer/Proofs3.v
theories/PtTransfer/Proofs4.v
theories/PtTransfer/Proofs5.v
theories/PtTransfer/Props.v
theories/PtTransfer/Spec.v
theories/RecordLayout/Accept.v
theories/RecordLayout/Chain.v
theories/RecordLayout/Model.v
theories/RecordLayout/NoPanic.v
theories/RecordLayout/Proofs.v
theories/RecordLayout/Props.v
theories/RecordLayout/Spec.v
theories/RecordLayout/Struct.v
theories/RecordLayout/Union.v
theories/RecordTraits/Cpp.v
theories/RecordTraits/Model.v
theories/RecordTraits/Props.v
theories/RecordTraits/Spec.v
theories/RsOption/Model.v
theories/RsOption/Props.v
theories/RsOption/Spec.v
theories/RsStd/Model.v
theories/RsStd/Props.v
theories/RsStd/Spec.v
theories/RsVec/Model.v
theories/RsVec/Props.v
theories/RsVec/Spec.v
theories/Thunk/Model.v
theories/Thunk/Names.v
theories/Thunk/Proofs.v
theories/Thunk/Props.v
theories/Thunk/Returns.v
theories/Thunk/Spec.v
theories/TokenPrinter/Capture.v
theories/TokenPrinter/Chunks.v
theories/TokenPrinter/Model.v
theories/TokenPrinter/Props.v
theories/TokenPrinter/Quote.v
theories/TokenPrinter/Spec.v
theories/Toposort/Model.v
theories/Toposort/Proofs.v
theories/Toposort/Props.v
theories/Toposort/Spec.v
theories/TypeNull/Model.v
theories/TypeNull/Proofs.v
theories/TypeNull/Proofs2.v
theories/TypeNull/Proofs3.v
theories/TypeNull/Proofs4.v
theories/TypeNull/Props.v
theories/TypeNull/Spec.v
theories/Visibility/Model.v
theories/Visibility/Proofs.v
theories/Visibility/Props.v
theories/Visibility/Spec.v
