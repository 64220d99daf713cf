-Q theories Verif
theories/Base.v
theories/SumR.v
theories/AlgebraModel.v
theories/AlgebraSpec.v
theories/Coo_proofs.v
theories/Csr_proofs.v
theories/Mult_proofs.v
theories/Vec_proofs.v
theories/System_proofs.v
theories/NonLinear_proofs.v
theories/Algebra_bridge.v
theories/Props_Algebra.v
theories/SolversModel.v
theories/Safe_proofs.v
theories/Ssor_proofs.v
theories/Pcg_theory.v
theories/Solver_proofs.v
theories/Solver_spd.v
theories/Precond_proofs.v
theories/Ic_proofs.v
theories/SolversSpec.v
theories/Solvers_bridge.v
theories/Props_Solvers.v
theories/GeometryModel.v
theories/GeometrySpec.v
theories/Geometry_proofs.v
theories/Circle_proofs.v
theories/Polygon_proofs.v
theories/Segment_proofs.v
theories/Utils_proofs.v
theories/Props_Geometry.v
theories/DrawingModel.v
theories/DrawingSpec.v
theories/Drawing_proofs.v
theories/DrawingR_proofs.v
theories/DrawingR2_proofs.v
theories/DrawingIds_proofs.v
theories/Props_Drawing.v
theories/MeshModel.v
theories/MeshSpec.v
theories/Adjacency_proofs.v
theories/Fem_proofs.v
theories/Energy_proofs.v
theories/MeshGeo_proofs.v
theories/Integral_proofs.v
theories/Box_proofs.v
theories/Pin_proofs.v
theories/Magnet_proofs.v
theories/Kelvin_proofs.v
theories/Wellposed_proofs.v
theories/Props_Mesh.v
theories/Props_Mesh2.v
theories/MaterialModel.v
theories/MaterialSpec.v
theories/Material_proofs.v
theories/Props_Material.v
theories/LayersModel.v
theories/LayersSpec.v
theories/Voltage_proofs.v
theories/Layers_proofs.v
theories/Wiring_proofs.v
theories/Power_proofs.v
theories/Conductor_proofs.v
theories/Props_Layers.v
theories/SimModel.v
theories/SimSpec.v
theories/Sim_proofs.v
theories/Props_Sim.v
theories/ForceModel.v
theories/ForceSpec.v
theories/Edges_proofs.v
theories/Hold_proofs.v
theories/Shell_proofs.v
theories/Props_Force.v
theories/Weights_proofs.v
theories/Props_Weights.v
theories/PoolModel.v
theories/PoolSpec.v
theories/Pool_proofs.v
theories/Props_Pool.v
theories/OwnModel.v
theories/OwnSpec.v
theories/Own_proofs.v
theories/Props_Own.v
theories/RingSpec.v
theories/Ring_proofs.v
theories/Props_Ring.v
theories/Props_Equal.v
theories/BindModel.v
theories/BindSpec.v
theories/Bind_proofs.v
theories/BindOut_proofs.v
theories/Props_Bind.v
theories/RegionSpec.v
theories/Props_Region.v
theories/SwitchModel.v
theories/SwitchSpec.v
theories/Switch_proofs.v
theories/Props_Switch.v
theories/SetupModel.v
theories/SetupSpec.v
theories/Setup_proofs.v
theories/Setup2_proofs.v
theories/Boundary_proofs.v
theories/Props_Setup.v
theories/RefineSpec.v
theories/Refine_proofs.v
theories/Refine2_proofs.v
theories/Refine3_proofs.v
theories/Props_Refine.v
theories/Props_Elem.v
theories/CarveModel.v
theories/CarveSpec.v
theories/Carve_proofs.v
theories/Props_Carve.v
theories/CotSpec.v
theories/Cot_proofs.v
theories/Props_Cot.v
theories/RefModel.v
theories/RefSpec.v
theories/Ref_proofs.v
theories/Props_Ref.v
theories/PhysSpec.v
theories/Phys_proofs.v
theories/Props_Phys.v
theories/MagSpec.v
theories/Mag_proofs.v
theories/Props_Mag.v
theories/StackSpec.v
theories/Stack_proofs.v
theories/Props_Stack.v
theories/ZeroSpec.v
theories/Zero_proofs.v
theories/Props_Zero.v
theories/AgainSpec.v
theories/Again_proofs.v
theories/Props_Again.v
theories/CholSpec.v
theories/Chol_dense.v
theories/Chol_proofs.v
theories/Chol2_proofs.v
theories/Props_Chol.v
theories/PlaneSpec.v
theories/Plane_proofs.v
theories/Props_Plane.v
theories/ExampleModel.v
theories/ExampleSpec.v
theories/Example_proofs.v
theories/Motion_proofs.v
theories/Motor_proofs.v
theories/Props_Example.v
theories/UnitTests.v
theories/SegmentModel.v
theories/FloatSpec.v
theories/Float_proofs.v
theories/FloatBound_proofs.v
theories/FloatUse_proofs.v
theories/Props_Float.v
theories/RoundSpec.v
theories/Round_proofs.v
theories/RoundUse_proofs.v
theories/RoundGrid_proofs.v
theories/Props_Round.v
theories/MultOrder_proofs.v
theories/MultRoundSpec.v
theories/MultRound_proofs.v
theories/Props_MultRound.v
theories/PredicateModel.v
theories/PredicateSpec.v
theories/Predicate_proofs.v
theories/Incircle_proofs.v
theories/Props_Predicate.v
theories/ExpansionModel.v
theories/ExpansionSpec.v
theories/Expansion_proofs.v
theories/ExpansionR_proofs.v
theories/Props_Expansion.v
theories/StageB_proofs.v
theories/Props_Orientation.v
theories/ScaleModel.v
theories/Scale_proofs.v
theories/Props_Scale.v
