-Q theories Verif
theories/Lib.v
theories/Scheduler_Model.v
theories/Scheduler_Spec.v
theories/Scheduler_Proofs.v
theories/Scheduler_Proofs2.v
theories/Scheduler_Proofs3.v
theories/Scheduler_Props.v
theories/Governor_Model.v
theories/Governor_Spec.v
theories/Governor_Proofs.v
theories/Governor_Proofs2.v
theories/Governor_Proofs3.v
theories/Governor_Props.v
theories/Status_Model.v
theories/Status_Props.v
theories/Navigation_Model.v
theories/Navigation_Spec.v
theories/Navigation_Proofs.v
theories/Navigation_Proofs2.v
theories/Navigation_Proofs3.v
theories/Navigation_Props.v
theories/Flight_Model.v
theories/Flight_Spec.v
theories/Flight_Proofs.v
theories/Flight_Proofs2.v
theories/Flight_Proofs3.v
theories/Flight_Props.v
theories/Codec_Model.v
theories/Codec_Proofs.v
theories/Codec_Props.v
theories/Disk_Model.v
theories/Disk_Proofs.v
theories/Disk_Props.v
theories/Cleanup_Model.v
theories/Cleanup_Props.v
theories/Types_Model.v
theories/Types_Spec.v
theories/Types_Order.v
theories/Types_Union.v
theories/Types_Shape.v
theories/Types_Widen.v
theories/Types_Total.v
theories/Types_Sub.v
theories/Types_Props.v
theories/Scc_Model.v
theories/Scc_Proofs.v
theories/Returns_Model.v
theories/Returns_Spec.v
theories/Returns_Proofs.v
theories/Returns_Solve.v
theories/Returns_Complete.v
theories/Returns_Props.v
theories/Constants_Model.v
theories/Constants_Spec.v
theories/Constants_Proofs.v
theories/Constants_Props.v
theories/Sort_Lib.v
theories/Index_Lib.v
theories/Symbols_Model.v
theories/Symbols_Spec.v
theories/Symbols_Proofs.v
theories/Symbols_Props.v
theories/Methods_Model.v
theories/Methods_Spec.v
theories/Methods_Proofs.v
theories/Methods_Props.v
theories/References_Model.v
theories/References_Spec.v
theories/References_Proofs.v
theories/References_Props.v
theories/FileStores_Model.v
theories/FileStores_Spec.v
theories/FileStores_Proofs.v
theories/FileStores_Props.v
theories/Graph_Model.v
theories/Graph_Spec.v
theories/Graph_Proofs.v
theories/Graph_Props.v
theories/TypeStore_Model.v
theories/TypeStore_Spec.v
theories/TypeStore_Proofs.v
theories/TypeStore_Props.v
theories/Ancestors_Model.v
theories/Ancestors_Spec.v
theories/Ancestors_Proofs.v
theories/Ancestors_Order.v
theories/Ancestors_Walks.v
theories/Ancestors_Props.v
theories/Engine_Model.v
theories/Engine_Spec.v
theories/Engine_Proofs.v
theories/Engine_Props.v
theories/Text_Lib.v
theories/Position_Model.v
theories/Position_Spec.v
theories/Position_Proofs.v
theories/Position_Props.v
theories/Erb_Model.v
theories/Erb_Spec.v
theories/Erb_Proofs.v
theories/Erb_Props.v
theories/FileIds_Model.v
theories/FileIds_Spec.v
theories/FileIds_Proofs.v
theories/FileIds_Props.v
theories/Descriptor_Model.v
theories/Descriptor_Spec.v
theories/Descriptor_Props.v
theories/Owner_Model.v
theories/Owner_Props.v
theories/Tokens_Model.v
theories/Tokens_Spec.v
theories/Tokens_Proofs.v
theories/Tokens_Props.v
theories/Snapshots_Model.v
theories/Snapshots_Spec.v
theories/Snapshots_Proofs.v
theories/Snapshots_Props.v
theories/Fingerprint_Model.v
theories/Fingerprint_Spec.v
theories/Fingerprint_Proofs.v
theories/Fingerprint_Props.v
theories/Calls_Model.v
theories/Calls_Spec.v
theories/Calls_Proofs.v
theories/Calls_Props.v
theories/Suggest_Model.v
theories/Suggest_Spec.v
theories/Suggest_Proofs.v
theories/Suggest_Props.v
theories/Rename_Model.v
theories/Rename_Spec.v
theories/Rename_Proofs.v
theories/Rename_Props.v
theories/Ranges_Model.v
theories/Ranges_Spec.v
theories/Ranges_Proofs.v
theories/Ranges_Props.v
theories/Locals_Model.v
theories/Locals_Spec.v
theories/Locals_Proofs.v
theories/Locals_Props.v
theories/Classfile_Model.v
theories/Classfile_Spec.v
theories/Classfile_Proofs.v
theories/Classfile_Text.v
theories/Classfile_Values.v
theories/Classfile_Counts.v
theories/Classfile_Members.v
theories/Classfile_Props.v
theories/Flow_Model.v
theories/Flow_Spec.v
theories/Flow_Proofs.v
theories/Flow_Exact.v
theories/Flow_Props.v
theories/Dispatch_Model.v
theories/Dispatch_Spec.v
theories/Dispatch_Proofs.v
theories/Dispatch_Query.v
theories/Dispatch_Check.v
theories/Dispatch_Props.v
theories/TypeFlow_Model.v
theories/TypeFlow_Spec.v
theories/TypeFlow_Frame.v
theories/TypeFlow_Tracker.v
theories/TypeFlow_Cover.v
theories/TypeFlow_Views.v
theories/TypeFlow_Fits.v
theories/TypeFlow_Narrow.v
theories/TypeFlow_Calls.v
theories/TypeFlow_Sound.v
theories/TypeFlow_Main.v
theories/TypeFlow_Branch.v
theories/TypeFlow_Except.v
theories/TypeFlow_Loop.v
theories/TypeFlow_All.v
theories/TypeFlow_Plain.v
theories/TypeFlow_Props.v
theories/TypeFlow_Refuted.v
theories/Editor_Model.v
theories/Editor_Spec.v
theories/Editor_Core.v
theories/Editor_Steps.v
theories/Editor_Proofs.v
theories/Editor_Run.v
theories/Editor_Closed.v
theories/Editor_Play.v
theories/Editor_Props.v
theories/Queues_Model.v
theories/Queues_Spec.v
theories/Queues_Proofs.v
theories/Queues_Props.v
theories/SigHelp_Model.v
theories/SigHelp_Spec.v
theories/SigHelp_Proofs.v
theories/SigHelp_Find.v
theories/SigHelp_Props.v
theories/Names_Model.v
theories/Names_Props.v
theories/CallHier_Model.v
theories/CallHier_Spec.v
theories/CallHier_Props.v
theories/TypeHier_Model.v
theories/TypeHier_Spec.v
theories/TypeHier_Props.v
theories/WsSymbols_Model.v
theories/WsSymbols_Spec.v
theories/WsSymbols_Props.v
theories/Outline_Model.v
theories/Outline_Spec.v
theories/Outline_Proofs.v
theories/Outline_Props.v
theories/Projects_Model.v
theories/Projects_Spec.v
theories/Projects_Proofs.v
theories/Projects_Props.v
theories/Folders_Proofs.v
theories/Folders_Props.v
theories/Requires_Model.v
theories/Requires_Spec.v
theories/Requires_Proofs.v
theories/Requires_Props.v
theories/Yard_Model.v
theories/Yard_Spec.v
theories/Yard_Proofs.v
theories/Yard_Props.v
theories/YardDoc_Model.v
theories/YardDoc_Spec.v
theories/YardDoc_Proofs.v
theories/YardDoc_Props.v
theories/TypeAt_Props.v
theories/Version_Model.v
theories/Version_Spec.v
theories/Version_Props.v
theories/Check_Model.v
theories/Check_Spec.v
theories/Check_Props.v
theories/CompText_Model.v
theories/CompText_Spec.v
theories/CompText_Props.v
theories/CompConst_Model.v
theories/CompConst_Spec.v
theories/CompConst_Props.v
theories/CompMeth_Model.v
theories/CompMeth_Spec.v
theories/CompMeth_Props.v
theories/CompRecv_Model.v
theories/CompRecv_Spec.v
theories/CompRecv_Props.v
theories/ShapeRead_Model.v
theories/ShapeRead_Spec.v
theories/ShapeRead_Props.v
theories/Literal_Model.v
theories/Literal_Spec.v
theories/Literal_Proofs.v
theories/Literal_Invariants.v
theories/Literal_Props.v
theories/KeyComp_Model.v
theories/KeyComp_Spec.v
theories/KeyComp_Props.v
theories/Splat_Model.v
theories/Splat_Spec.v
theories/Splat_Props.v
theories/Zip_Model.v
theories/Zip_Spec.v
theories/Zip_Props.v
theories/Archive_Model.v
theories/Archive_Spec.v
theories/Archive_Proofs.v
theories/Archive_Props.v
theories/InlayRet_Model.v
theories/InlayRet_Spec.v
theories/InlayRet_Props.v
theories/Lens_Model.v
theories/Lens_Spec.v
theories/Lens_Props.v
theories/JName_Model.v
theories/JName_Spec.v
theories/JName_Props.v
theories/JStub_Model.v
theories/JStub_Spec.v
theories/JStub_Props.v
theories/RbsConv_Model.v
theories/RbsConv_Spec.v
theories/RbsConv_Props.v
theories/HigherOrder_Model.v
theories/HigherOrder_Spec.v
theories/HigherOrder_Props.v
theories/RbsSig_Model.v
theories/RbsSig_Spec.v
theories/RbsSig_Props.v
theories/BlockState_Model.v
theories/BlockState_Props.v
