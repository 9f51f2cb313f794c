-Q theories Verif
theories/Adapt_Model.v
theories/Adapt_Proofs.v
theories/Adapt_Props.v
theories/Adapt_Spec.v
theories/Bseg_Model.v
theories/Bseg_Proofs.v
theories/Bseg_Props.v
theories/Bseg_Spec.v
theories/Caching_Model.v
theories/Caching_Props.v
theories/Comm_Agree.v
theories/Comm_Model.v
theories/Comm_Proofs.v
theories/Comm_Props.v
theories/Comm_Spec.v
theories/Components_Proofs.v
theories/Components_Props.v
theories/Container_Model.v
theories/Container_Props.v
theories/CreatedIface_Props.v
theories/Created_Proofs.v
theories/Created_Props.v
theories/Defaults_Props.v
theories/Dgf_Model.v
theories/Dgf_Props.v
theories/Distance_Model.v
theories/Distance_Props.v
theories/Entities_Examples.v
theories/Entities_Model.v
theories/Entities_Proofs.v
theories/Entities_Props.v
theories/Entities_Spec.v
theories/FMap.v
theories/Facets_Model.v
theories/Facets_Proofs.v
theories/Facets_Props.v
theories/Factory_Check.v
theories/Factory_Final.v
theories/Factory_Grid.v
theories/Factory_Links.v
theories/Factory_Model.v
theories/Factory_Proofs.v
theories/Factory_Props.v
theories/Factory_Spec.v
theories/Father_Model.v
theories/Father_Proofs.v
theories/Father_Props.v
theories/Father_Spec.v
theories/Fault_Model.v
theories/Fault_Props.v
theories/Fault_Spec.v
theories/Fresh_Model.v
theories/Fresh_Props.v
theories/GmshAccept_Props.v
theories/Gmsh_Model.v
theories/Gmsh_Proofs.v
theories/Gmsh_Props.v
theories/Gmsh_Spec.v
theories/GridFun_Model.v
theories/GridFun_Proofs.v
theories/GridFun_Props.v
theories/GridFun_Spec.v
theories/HashThreads_Model.v
theories/HashThreads_Props.v
theories/HoleInsert_Model.v
theories/HoleInsert_Props.v
theories/HoleInsert_Spec.v
theories/Hole_Model.v
theories/Hole_Proofs.v
theories/Hole_Props.v
theories/Hole_Spec.v
theories/Host_Examples.v
theories/Host_Model.v
theories/Host_Proofs.v
theories/Host_Props.v
theories/Host_Spec.v
theories/IComponents_Model.v
theories/IComponents_Proofs.v
theories/IComponents_Props.v
theories/IComponents_Spec.v
theories/ILength_Props.v
theories/ILength_Spec.v
theories/Ids_Model.v
theories/Ids_Proofs.v
theories/Ids_Props.v
theories/Ids_Spec.v
theories/IfInter_Model.v
theories/IfInter_Proofs.v
theories/IfLocal_Model.v
theories/IfLocal_Props.v
theories/Implicit_Model.v
theories/Implicit_Proofs.v
theories/Implicit_Props.v
theories/Implicit_Spec.v
theories/IndexMaps_Model.v
theories/IndexMaps_Proofs.v
theories/IndexMaps_Props.v
theories/IndexMaps_Spec.v
theories/IndexTypes_Model.v
theories/IndexTypes_Props.v
theories/Index_Check.v
theories/Index_IfProofs.v
theories/Index_Model.v
theories/Index_Proofs.v
theories/Index_Props.v
theories/Index_Spec.v
theories/Iter.v
theories/Jacobian_Model.v
theories/Jacobian_Proofs.v
theories/Jacobian_Props.v
theories/Jacobian_Spec.v
theories/Krylov_Model.v
theories/Krylov_Proofs.v
theories/Krylov_Props.v
theories/Krylov_Spec.v
theories/Levels_Model.v
theories/Levels_Props.v
theories/Marking_Model.v
theories/Marking_Proofs.v
theories/Marking_Props.v
theories/Marking_Spec.v
theories/Mass_Proofs.v
theories/Mass_Props.v
theories/Mass_Spec.v
theories/MoveMesh_Model.v
theories/MoveMesh_Props.v
theories/MoveSafe_Model.v
theories/MoveSafe_Props.v
theories/Move_Model.v
theories/Move_Props.v
theories/MultiId_Model.v
theories/MultiId_Proofs.v
theories/MultiId_Props.v
theories/MultiId_Spec.v
theories/Net.v
theories/Normals_Model.v
theories/Normals_Props.v
theories/Overlap_Proofs.v
theories/Overlap_Props.v
theories/Overlap_Spec.v
theories/Partition_Final.v
theories/Partition_Model.v
theories/Partition_Proofs.v
theories/Partition_Props.v
theories/Partition_Spec.v
theories/Polygon_Area.v
theories/Polygon_Model.v
theories/Polygon_Proofs.v
theories/Polygon_Props.v
theories/Polygon_Spec.v
theories/Prelude.v
theories/PyApi_Model.v
theories/PyApi_Props.v
theories/Ranks_Model.v
theories/Ranks_Proofs.v
theories/Ranks_Props.v
theories/Refine_Props.v
theories/Registration_Props.v
theories/ResolveCreated_Props.v
theories/Resolve_Model.v
theories/Resolve_Proofs.v
theories/Resolve_Props.v
theories/Resolve_Spec.v
theories/Segments_Model.v
theories/Segments_Props.v
theories/SolidCreated_Props.v
theories/SolidCut_Proofs.v
theories/Solid_Model.v
theories/Solid_Proofs.v
theories/Solid_Props.v
theories/Solid_Spec.v
theories/Solve_Model.v
theories/Solve_Props.v
theories/Sorting.v
theories/Sphere_Props.v
theories/Strategy_Model.v
theories/Strategy_Props.v
theories/Stream_Model.v
theories/Stream_Props.v
theories/Strips_Proofs.v
theories/Threads_Model.v
theories/Threads_Props.v
theories/TilingCreated_Props.v
theories/TilingMet_Props.v
theories/Tiling_Proofs.v
theories/Tiling_Props.v
theories/Tiling_Spec.v
theories/Transfer_Model.v
theories/Transfer_Proofs.v
theories/Transfer_Props.v
theories/Transfer_Spec.v
theories/Traversal_Model.v
theories/Traversal_Proofs.v
theories/Traversal_Props.v
theories/Traversal_Spec.v
theories/Whole_Model.v
theories/Whole_Props.v
theories/Whole_Spec.v
theories/ZonesHistory_Props.v
theories/ZonesMet_Props.v
theories/Zones_Proofs.v
theories/Zones_Props.v
theories/Zones_Spec.v
