-Q theories Verif
theories/PyBase.v
theories/PyStrings.v
theories/Containers_Model.v
theories/Containers_Proofs.v
theories/Containers_Props.v
theories/FlatGraph_Model.v
theories/Topo_Proofs.v
theories/Graph_Proofs.v
theories/Build_Proofs.v
theories/Prune_Proofs.v
theories/Pipeline_Proofs.v
theories/ValueEq_Model.v
theories/Signature_Proofs.v
theories/FlatGraph_Props.v
theories/Codegen_Model.v
theories/Codegen_Proofs.v
theories/Codegen_Props.v
theories/Static_Proofs.v
theories/Static_Props.v
theories/Ignore_Proofs.v
theories/Compile_Model.v
theories/Compile_Props.v
theories/Grad_Model.v
theories/Grad_Proofs.v
theories/Grad_Props.v
theories/NpGrad_Model.v
theories/NpGrad_Proofs.v
theories/NpGrad_Props.v
theories/Names_Model.v
theories/Names_Proofs.v
theories/Names_Props.v
theories/FlatNames_Proofs.v
theories/FlatNames_Props.v
theories/Logical_Model.v
theories/Logical_Proofs.v
theories/Cycle_Proofs.v
theories/Logical_Props.v
theories/Connections_Model.v
theories/Connections_Proofs.v
theories/Connections_Props.v
theories/Uniadic_Model.v
theories/Uniadic_Proofs.v
theories/Uniadic_Props.v
theories/Bcast_Model.v
theories/Bcast_Proofs.v
theories/Bcast_Props.v
theories/Solver_Model.v
theories/Solver_Proofs.v
theories/Solver_Props.v
theories/Values_Model.v
theories/Values_Props.v
theories/Bisect_Model.v
theories/Bisect_Props.v
theories/Shape_Model.v
theories/Shape_Proofs.v
theories/Shape_Proofs2.v
theories/Shape_Proofs3.v
theories/Shape_Props.v
theories/Reduce_Model.v
theories/Reduce_Spec.v
theories/Reduce_Proofs.v
theories/Reduce_Proofs2.v
theories/Reduce_Proofs3.v
theories/Reduce_Proofs4.v
theories/Reduce_Proofs5.v
theories/Reduce_Proofs6.v
theories/Reduce_Props.v
theories/Rule_Proofs.v
theories/Window_Model.v
theories/Window_Proofs.v
theories/Window_Props.v
theories/Arange_Model.v
theories/Arange_Proofs.v
theories/Arange_Props.v
theories/Reshape_Model.v
theories/Reshape_Proofs.v
theories/Reshape_Props.v
theories/Concat_Model.v
theories/Concat_Proofs.v
theories/Concat_Props.v
theories/Shard_Model.v
theories/Shard_Props.v
theories/Keys_Model.v
theories/Keys_Props.v
theories/State_Model.v
theories/State_Props.v
theories/Args_Model.v
theories/Args_Props.v
theories/Serial_Model.v
theories/Serial_Props.v
theories/Convert_Model.v
theories/Convert_Proofs.v
theories/Convert_Props.v
theories/Inter_Model.v
theories/Inter_Proofs.v
theories/Inter_Sound.v
theories/Inter_Step.v
theories/Inter_Main.v
theories/Inter_Full.v
theories/Inter_Total.v
theories/Inter_Props.v
theories/Train_Model.v
theories/Train_Spec.v
theories/Train_Proofs.v
theories/Train_Inv.v
theories/Train_Final.v
theories/Train_Done.v
theories/Train_Run.v
theories/Train_Props.v
theories/Index_Model.v
theories/Index_Spec.v
theories/Index_Pure.v
theories/Index_Arrange.v
theories/Index_Loop.v
theories/Index_Proofs.v
theories/Index_Rule.v
theories/Index_Props.v
theories/Deriv_Model.v
theories/Deriv_Spec.v
theories/Deriv_Proofs.v
theories/Deriv_Unary.v
theories/Deriv_Binary.v
theories/Deriv_Props.v
theories/Corr_Model.v
theories/Corr_Spec.v
theories/Corr_Proofs.v
theories/Corr_Props.v
theories/Corr_Props2.v
theories/Pool_Model.v
theories/Pool_Spec.v
theories/Pool_Proofs.v
theories/Pool_Props.v
theories/Axis_Model.v
theories/Axis_Spec.v
theories/Axis_Proofs.v
theories/Axis_Props.v
theories/Axis_Props2.v
theories/Axis_Props3.v
theories/Xent_Model.v
theories/Xent_Spec.v
theories/Xent_Proofs.v
theories/Xent_Props.v
theories/Xent_Props2.v
theories/Move_Model.v
theories/Move_Spec.v
theories/Move_Proofs.v
theories/Move_Proofs2.v
theories/Move_Props.v
theories/Select_Model.v
theories/Select_Spec.v
theories/Select_Proofs.v
theories/Select_Proofs2.v
theories/Select_Props.v
theories/Attn_Model.v
theories/Attn_Spec.v
theories/Attn_Proofs.v
theories/Attn_Props.v
theories/Attn_Props2.v
theories/Poly_Model.v
theories/Poly_Spec.v
theories/Poly_Proofs.v
theories/Poly_Props.v
theories/Dist_Model.v
theories/Dist_Spec.v
theories/Dist_Proofs.v
theories/Dist_Props.v
theories/Axis_Props4.v
theories/Carr_Model.v
theories/Carr_Spec.v
theories/Carr_Proofs.v
theories/Carr_Proofs2.v
theories/Carr_Proofs3.v
theories/Carr_Proofs4.v
theories/Carr_Proofs5.v
theories/Carr_Props.v
theories/Cgrad_Model.v
theories/Cgrad_Spec.v
theories/Cgrad_Proofs.v
theories/Cgrad_Proofs2.v
theories/Cgrad_Proofs3.v
theories/Cgrad_Props.v
theories/Flat_Model.v
theories/Flat_Spec.v
theories/Flat_Proofs.v
theories/Flat_Proofs2.v
theories/Flat_Proofs3.v
theories/Flat_Props.v
theories/Pad_Model.v
theories/Pad_Spec.v
theories/Pad_Proofs.v
theories/Pad_Proofs2.v
theories/Pad_Proofs3.v
theories/Pad_Props.v
theories/Align_Model.v
theories/Align_Spec.v
theories/Align_Proofs.v
theories/Align_Proofs2.v
theories/Align_Proofs3.v
theories/Align_Proofs4.v
theories/Align_Proofs5.v
theories/Align_Props.v
theories/Optype_Model.v
theories/Optype_Spec.v
theories/Optype_Proofs.v
theories/Optype_Proofs2.v
theories/Optype_Props.v
theories/Inter_Keep.v
theories/Item_Model.v
theories/Item_Spec.v
theories/Item_Proofs.v
theories/Item_Proofs2.v
theories/Item_Props.v
theories/Auc_Model.v
theories/Auc_Spec.v
theories/Auc_Proofs.v
theories/Auc_Proofs2.v
theories/Auc_Props.v
theories/Slot_Model.v
theories/Slot_Spec.v
theories/Slot_Proofs.v
theories/Slot_Props.v
theories/Metric_Model.v
theories/Metric_Spec.v
theories/Metric_Proofs.v
theories/Metric_Props.v
theories/Known_Model.v
theories/Known_Spec.v
theories/Known_Proofs.v
theories/Known_Props.v
theories/Recur_Model.v
theories/Recur_Spec.v
theories/Recur_Proofs.v
theories/Recur_Props.v
theories/Norm_Model.v
theories/Norm_Spec.v
theories/Norm_Proofs.v
theories/Norm_Props.v
theories/Swap_Model.v
theories/Swap_Spec.v
theories/Swap_Proofs.v
theories/Swap_Proofs2.v
theories/Swap_Proofs3.v
theories/Swap_Props.v
theories/Sizes_Model.v
theories/Sizes_Spec.v
theories/Sizes_Proofs.v
theories/Sizes_Proofs2.v
theories/Sizes_Props.v
