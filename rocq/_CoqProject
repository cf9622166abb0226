-Q theories Verif
theories/AddGroup_Proofs.v
theories/AddProducts_Proofs.v
theories/Add_Model.v
theories/Add_Proofs.v
theories/Add_Props.v
theories/Add_Spec.v
theories/AllToAll_Model.v
theories/AllToAll_Proofs.v
theories/AllToAll_Props.v
theories/AllToAll_Spec.v
theories/Append_Proofs.v
theories/Arr_Model.v
theories/Arr_Proofs.v
theories/Arr_Props.v
theories/Arr_Spec.v
theories/Base.v
theories/Bins_Proofs.v
theories/Bitonic_Proofs.v
theories/BlockCheck_Model.v
theories/BlockCheck_Proofs.v
theories/BlockCheck_Props.v
theories/BlockCheck_Spec.v
theories/BlockLoop_Model.v
theories/BlockLoop_Proofs.v
theories/BlockLoop_Props.v
theories/BlockLoop_Spec.v
theories/BlockSerial_Proofs.v
theories/BlockStats_Proofs.v
theories/Bmi2_Proofs.v
theories/Bmi3_Proofs.v
theories/Bmi4_Proofs.v
theories/Bmi_Model.v
theories/Bmi_Proofs.v
theories/Bmi_Props.v
theories/Bmi_Spec.v
theories/Bounce_Model.v
theories/Bounce_Proofs.v
theories/Bounce_Props.v
theories/Bounce_Spec.v
theories/CartBin_Proofs.v
theories/CartDecomp_Proofs.v
theories/CartFace_Model.v
theories/CartFace_Proofs.v
theories/CartFace_Props.v
theories/CartFace_Spec.v
theories/CartGlobal_Proofs.v
theories/CartLocal_Proofs.v
theories/CartLoop_Proofs.v
theories/CartMap_Model.v
theories/CartMap_Proofs.v
theories/CartMap_Props.v
theories/CartMap_Spec.v
theories/CartMesh_Model.v
theories/CartMesh_Proofs.v
theories/CartMesh_Props.v
theories/CartMesh_Spec.v
theories/CartMove2_Proofs.v
theories/CartMove3_Proofs.v
theories/CartMove_Model.v
theories/CartMove_Proofs.v
theories/CartMove_Props.v
theories/CartMove_Spec.v
theories/CartOwner_Proofs.v
theories/Cas_Proofs.v
theories/CellConst_Model.v
theories/CellConst_Proofs.v
theories/CellConst_Props.v
theories/CellConst_Spec.v
theories/CellDat_Model.v
theories/CellDat_Proofs.v
theories/CellDat_Props.v
theories/CellDat_Spec.v
theories/CellRep_Model.v
theories/CellRep_Proofs.v
theories/CellRep_Spec.v
theories/Cellwise_Model.v
theories/Cellwise_Proofs.v
theories/Cellwise_Props.v
theories/Cellwise_Spec.v
theories/Compress_Model.v
theories/Compress_Proofs.v
theories/Compress_Props.v
theories/Compress_Spec.v
theories/CounterHistory_Proofs.v
theories/CounterMove_Proofs.v
theories/CounterOps_Proofs.v
theories/Counter_Model.v
theories/Counter_Proofs.v
theories/Counter_Props.v
theories/Counter_Spec.v
theories/CouplerBuild_Proofs.v
theories/CouplerMove_Proofs.v
theories/Coupler_Model.v
theories/Coupler_Proofs.v
theories/Coupler_Props.v
theories/Coupler_Spec.v
theories/DG0_Model.v
theories/DG0_Proofs.v
theories/DG0_Props.v
theories/DG0_Spec.v
theories/Depart_Proofs.v
theories/DeviceFn_Model.v
theories/DeviceFn_Proofs.v
theories/DeviceFn_Props.v
theories/DeviceFn_Spec.v
theories/Dof_Model.v
theories/Dof_Props.v
theories/Dof_Spec.v
theories/Edges_Model.v
theories/Edges_Proofs.v
theories/Edges_Props.v
theories/Edges_Spec.v
theories/Exchange_Model.v
theories/Exchange_Proofs.v
theories/Exchange_Props.v
theories/Exchange_Spec.v
theories/FacetHit_Proofs.v
theories/Facet_Model.v
theories/Facet_Proofs.v
theories/Facet_Props.v
theories/Facet_Spec.v
theories/Group_Model.v
theories/Group_Proofs.v
theories/Group_Spec.v
theories/HaloMap_Proofs.v
theories/HaloRep_Proofs.v
theories/Halo_Model.v
theories/Halo_Proofs.v
theories/Halo_Props.v
theories/Halo_Spec.v
theories/HostMap_Model.v
theories/HostMap_Proofs.v
theories/HostMap_Props.v
theories/HostMap_Spec.v
theories/InterfaceClaim_Proofs.v
theories/Interface_Model.v
theories/Interface_Proofs.v
theories/Interface_Props.v
theories/Interface_Spec.v
theories/Kernel.v
theories/Loop_Model.v
theories/Loop_Proofs.v
theories/Loop_Props.v
theories/Loop_Spec.v
theories/MHC_Model.v
theories/MHC_Proofs.v
theories/MHC_Props.v
theories/MHC_Spec.v
theories/MHCmsg_Proofs.v
theories/Mapper2DCell_Proofs.v
theories/Mapper2DCreate_Proofs.v
theories/Mapper2DMap_Proofs.v
theories/Mapper2DOverlay_Proofs.v
theories/Mapper2DPoly_Proofs.v
theories/Mapper2D_Model.v
theories/Mapper2D_Props.v
theories/Mapper2D_Spec.v
theories/Maps_Model.v
theories/Maps_Proofs.v
theories/Maps_Props.v
theories/Maps_Spec.v
theories/MeshClaim_Proofs.v
theories/MeshNb_Proofs.v
theories/MeshPos_Proofs.v
theories/Mesh_Model.v
theories/Mesh_Proofs.v
theories/Mesh_Props.v
theories/Mesh_Spec.v
theories/Move_Model.v
theories/Move_Proofs.v
theories/Move_Props.v
theories/Move_Spec.v
theories/NumberingCoupler_Props.v
theories/Numbering_Model.v
theories/Numbering_Proofs.v
theories/Numbering_Props.v
theories/Numbering_Spec.v
theories/OverlapClaim_Proofs.v
theories/OverlapMap_Proofs.v
theories/Overlap_Model.v
theories/Overlap_Proofs.v
theories/Overlap_Props.v
theories/Overlap_Spec.v
theories/PSet_Model.v
theories/PSet_Proofs.v
theories/PSet_Props.v
theories/PSet_Spec.v
theories/Pack_Model.v
theories/Pack_Proofs.v
theories/Pack_Spec.v
theories/PairHistory_Proofs.v
theories/PairHost_Proofs.v
theories/PairHost_Props.v
theories/PairList_Model.v
theories/PairList_Spec.v
theories/PairLoop_Proofs.v
theories/PairLoop_Props.v
theories/PairOrder_Proofs.v
theories/PairSerial_Proofs.v
theories/PairSet_Proofs.v
theories/PairSimple_Proofs.v
theories/PairSimple_Props.v
theories/ParInit_Model.v
theories/ParInit_Proofs.v
theories/ParInit_Props.v
theories/Partition_Model.v
theories/Partition_Proofs.v
theories/Partition_Props.v
theories/Partition_Spec.v
theories/Pool_Model.v
theories/Pool_Proofs.v
theories/Pool_Props.v
theories/Pool_Spec.v
theories/Protocol_Model.v
theories/Protocol_Proofs.v
theories/Protocol_Props.v
theories/Protocol_Spec.v
theories/QuadCalls_Proofs.v
theories/QuadFin_Proofs.v
theories/QuadGet_Proofs.v
theories/QuadRank_Proofs.v
theories/Quad_Model.v
theories/Quad_Props.v
theories/Quad_Spec.v
theories/RNG2_Proofs.v
theories/RNG3_Proofs.v
theories/RNG_Model.v
theories/RNG_Proofs.v
theories/RNG_Props.v
theories/RNG_Spec.v
theories/Reduce2_Proofs.v
theories/Reduce3_Proofs.v
theories/Reduce4_Proofs.v
theories/Reduce_Model.v
theories/Reduce_Proofs.v
theories/Reduce_Props.v
theories/Reduce_Spec.v
theories/Remover_Model.v
theories/Remover_Proofs.v
theories/Remover_Props.v
theories/Remover_Spec.v
theories/SamplerNRKernel_Proofs.v
theories/SamplerNRLoop_Proofs.v
theories/SamplerNRReach_Proofs.v
theories/SamplerNR_Model.v
theories/SamplerNR_Proofs.v
theories/SamplerNR_Props.v
theories/SamplerNR_Spec.v
theories/SamplerNTCBlock_Proofs.v
theories/SamplerNTCCell_Proofs.v
theories/SamplerNTCDraw_Proofs.v
theories/SamplerNTCGpu_Proofs.v
theories/SamplerNTCResolve_Proofs.v
theories/SamplerNTCSample_Proofs.v
theories/SamplerNTC_Model.v
theories/SamplerNTC_Proofs.v
theories/SamplerNTC_Props.v
theories/SamplerNTC_Spec.v
theories/Scan_Model.v
theories/Scan_Proofs.v
theories/Scan_Props.v
theories/Scan_Spec.v
theories/Serial_Model.v
theories/Serial_Proofs.v
theories/SubGroupKernel_Proofs.v
theories/SubGroupPartition_Proofs.v
theories/SubGroupProps_Proofs.v
theories/SubGroupSelect_Proofs.v
theories/SubGroupUnion_Proofs.v
theories/SubGroup_Model.v
theories/SubGroup_Proofs.v
theories/SubGroup_Props.v
theories/SubGroup_Spec.v
theories/Surf_Model.v
theories/Surf_Proofs.v
theories/Surf_Props.v
theories/Surf_Spec.v
theories/SymCache_Model.v
theories/SymCache_Props.v
theories/SymCache_Spec.v
theories/TempGroup_Model.v
theories/TempGroup_Proofs.v
theories/TempGroup_Props.v
theories/TempGroup_Spec.v
theories/Traj2_Proofs.v
theories/Traj3_Proofs.v
theories/Traj_Model.v
theories/Traj_Proofs.v
theories/Traj_Props.v
theories/Traj_Spec.v
theories/Transpose_Model.v
theories/Transpose_Proofs.v
theories/Transpose_Props.v
theories/UnionTree_Proofs.v
theories/Union_Model.v
theories/Union_Proofs.v
theories/Union_Props.v
theories/Union_Spec.v
theories/Unpack_Proofs.v
theories/Unseen_Model.v
theories/Unseen_Props.v
theories/VersionHistory_Proofs.v
theories/Version_Model.v
theories/Version_Proofs.v
theories/Version_Props.v
theories/Version_Spec.v
theories/World_Proofs.v
