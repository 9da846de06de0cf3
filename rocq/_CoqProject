-Q theories Verif
theories/Base.v
theories/Maps.v
theories/Regions_Model.v
theories/Regions_Spec.v
theories/Regions_Proofs.v
theories/Regions_Props.v
theories/KdTree_Model.v
theories/KdTree_Spec.v
theories/KdTree_Proofs.v
theories/KdTree_Props.v
theories/Positions_Model.v
theories/Positions_Spec.v
theories/Positions_Proofs.v
theories/Positions_Props.v
theories/Hierarchy_Model.v
theories/Hierarchy_Spec.v
theories/Hierarchy_Proofs.v
theories/Hierarchy_Props.v
theories/Confluent_Model.v
theories/Confluent_Spec.v
theories/Confluent_Proofs.v
theories/Confluent_Props.v
theories/Waypoints_Model.v
theories/Waypoints_Spec.v
theories/Waypoints_Proofs.v
theories/Waypoints_Props.v
theories/Scalar_Model.v
theories/Scalar_Spec.v
theories/Scalar_Proofs.v
theories/Scalar_Props.v
theories/Rulebook_Model.v
theories/Rulebook_Spec.v
theories/Rulebook_Proofs.v
theories/Rulebook_Props.v
theories/Phases_Model.v
theories/Phases_Spec.v
theories/Phases_Proofs.v
theories/Phases_Props.v
theories/RuleStates_Model.v
theories/RuleStates_Spec.v
theories/RuleStates_Proofs.v
theories/RuleStates_Props.v
theories/Intersections_Model.v
theories/Intersections_Spec.v
theories/Intersections_Proofs.v
theories/Intersections_Props.v
theories/Graph_Model.v
theories/Graph_Spec.v
theories/Graph_Proofs.v
theories/Graph_Props.v
theories/LaneSeqs_Model.v
theories/LaneSeqs_Spec.v
theories/LaneSeqs_Proofs.v
theories/LaneSeqs_Props.v
theories/Route_Model.v
theories/Route_Spec.v
theories/Route_Proofs.v
theories/Route_Props.v
theories/Router_Model.v
theories/Router_Spec.v
theories/Router_Proofs.v
theories/Router_Props.v
theories/ThreadPool_Model.v
theories/ThreadPool_Spec.v
theories/ThreadPool_Inv.v
theories/ThreadPool_Proofs.v
theories/ThreadPool_Props.v
theories/Mesh_Model.v
theories/Mesh_Spec.v
theories/Mesh_Proofs.v
theories/Mesh_Props.v
theories/Simplify_Model.v
theories/Simplify_Spec.v
theories/Simplify_Proofs.v
theories/Simplify_Proofs2.v
theories/Simplify_Proofs3.v
theories/Simplify_Proofs4.v
theories/Simplify_Proofs5.v
theories/Simplify_Props.v
theories/RoadMesh_Model.v
theories/RoadMesh_Spec.v
theories/RoadMesh_Proofs.v
theories/RoadMesh_Proofs2.v
theories/RoadMesh_Proofs3.v
theories/RoadMesh_Props.v
theories/Tracker_Model.v
theories/Tracker_Spec.v
theories/Tracker_Proofs.v
theories/Tracker_Proofs2.v
theories/Tracker_Props.v
theories/UniqueId_Model.v
theories/UniqueId_Spec.v
theories/UniqueId_Props.v
theories/Loaders_Model.v
theories/Loaders_Spec.v
theories/Loaders_Proofs.v
theories/Loaders_Proofs2.v
theories/Loaders_Proofs3.v
theories/Loaders_Proofs4.v
theories/Loaders_Proofs5.v
theories/Loaders_Props.v
theories/Files_Model.v
theories/Files_Spec.v
theories/Files_Proofs.v
theories/Files_Props.v
theories/Matrix_Model.v
theories/Matrix_Spec.v
theories/Matrix_Proofs.v
theories/Matrix_Props.v
theories/Rotation_Model.v
theories/Rotation_Spec.v
theories/Rotation_Proofs.v
theories/Rotation_Proofs2.v
theories/Quaternion_Props.v
theories/Quaternion2_Props.v
theories/RollPitchYaw_Props.v
theories/Box_Model.v
theories/Box_Spec.v
theories/Box_Proofs.v
theories/Box_Props.v
theories/Box_Props2.v
theories/LaneData_Model.v
theories/LaneData_Spec.v
theories/LaneData_Proofs.v
theories/LaneData_Props.v
theories/Binary64.v
theories/Binary64_Round.v
theories/Binary64_Order.v
theories/LaneDataFloat_Model.v
theories/LaneDataFloat_Props.v
theories/Validator_Model.v
theories/Validator_Spec.v
theories/Validator_Proofs.v
theories/Validator_Props.v
theories/Poly_Model.v
theories/Poly_Spec.v
theories/Poly_Proofs.v
theories/Poly_Proofs2.v
theories/Poly_Proofs3.v
theories/Poly_Proofs4.v
theories/Poly_Proofs5.v
theories/Poly_Props.v
theories/Traj_Model.v
theories/Traj_Spec.v
theories/Traj_Proofs.v
theories/Traj_Proofs2.v
theories/Traj_Proofs3.v
theories/Traj_Proofs4.v
theories/Traj_Proofs5.v
theories/Traj_Proofs6.v
theories/Traj_Proofs7.v
theories/Traj_Proofs8.v
theories/Traj_Proofs9.v
theories/Traj_Proofs10.v
theories/Traj_Props.v
theories/Traj_Props2.v
theories/Traj_Props3.v
theories/Compare_Model.v
theories/Compare_Spec.v
theories/Compare_Proofs.v
theories/Compare_Float.v
theories/Compare_Props.v
theories/RuleLoaders_Model.v
theories/RuleLoaders_Spec.v
theories/RuleLoaders_Proofs.v
theories/RuleLoaders_Proofs2.v
theories/RuleLoaders_Proofs3.v
theories/RuleLoaders_Proofs4.v
theories/RuleLoaders_Proofs5.v
theories/RuleLoaders_Props.v
theories/RuleLoaders_Props2.v
theories/RuleLoaders_Props3.v
theories/Integ_Model.v
theories/Integ_Proofs.v
theories/Integ_Proofs2.v
theories/Integ_Proofs3.v
theories/Integ_Proofs4.v
theories/Integ_Proofs5.v
theories/Integ_Proofs6.v
theories/Integ_Proofs7.v
theories/Integ_Proofs8.v
theories/Integ_Proofs9.v
theories/Integ_Proofs10.v
theories/Integ_Proofs11.v
theories/Integ_Proofs12.v
theories/Integ_Props.v
theories/Integ_Props2.v
theories/Integ_Props3.v
theories/Integ_Props4.v
theories/Integ_Props5.v
theories/Integ_Spec.v
theories/Fresnel_Model.v
theories/Fresnel_Spec.v
theories/Fresnel_Proofs.v
theories/Fresnel_Proofs2.v
theories/Fresnel_Proofs3.v
theories/Fresnel_Proofs4.v
theories/Fresnel_Proofs5.v
theories/Fresnel_Proofs6.v
theories/Fresnel_Proofs7.v
theories/Fresnel_Proofs8.v
theories/Fresnel_Proofs9.v
theories/Fresnel_Props.v
theories/Plugins_Model.v
theories/Plugins_Spec.v
theories/Plugins_Proofs.v
theories/Plugins_Proofs2.v
theories/Plugins_Proofs3.v
theories/Plugins_Props.v
theories/Texts_Model.v
theories/Texts_Spec.v
theories/Texts_Proofs.v
theories/Texts_Proofs2.v
theories/Texts_Props.v
theories/Doubles_Model.v
theories/Doubles_Spec.v
theories/Doubles_Proofs.v
theories/Doubles_Proofs2.v
theories/Doubles_Proofs3.v
theories/Doubles_Proofs4.v
theories/Doubles_Proofs5.v
theories/Doubles_Props.v
theories/Doubles_Props2.v
theories/Doubles_Props3.v
theories/Binary64_Ext.v
theories/KdFloat_Model.v
theories/KdFloat_Spec.v
theories/KdFloat_Proofs.v
theories/KdFloat_Proofs2.v
theories/KdFloat_Props.v
theories/KdRange_Model.v
theories/KdRange_Spec.v
theories/KdRange_Proofs.v
theories/KdRange_Props.v
theories/Network_Model.v
theories/Network_Spec.v
theories/Network_Props.v
theories/Binary64_Sqrt.v
theories/Closest_Model.v
theories/Closest_Spec.v
theories/Closest_Proofs.v
theories/Closest_Props.v
theories/Closest_Proofs2.v
theories/Closest_Props2.v
theories/Vectors_Model.v
theories/Vectors_Spec.v
theories/Vectors_Proofs.v
theories/Vectors_Proofs2.v
theories/Vectors_Props.v
theories/Vectors_Props2.v
theories/MatFloat_Model.v
theories/MatFloat_Spec.v
theories/MatFloat_Props.v
theories/FixedText_Model.v
theories/FixedText_Spec.v
theories/FixedText_Proofs.v
theories/FixedText_Props.v
