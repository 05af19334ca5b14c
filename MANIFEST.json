{
 "claims": [
  {
   "property": "C01",
   "status": "proved",
   "theorems": [
    "C01_forward_kinematics_path"
   ],
   "note": ""
  },
  {
   "property": "C02",
   "status": "proved",
   "theorems": [
    "C02_poses_are_rigid"
   ],
   "note": ""
  },
  {
   "property": "C03",
   "status": "proved",
   "theorems": [
    "C03_forward_velocity_path"
   ],
   "note": ""
  },
  {
   "property": "C04",
   "status": "partial",
   "theorems": [
    "C04_velocity_is_derivative",
    "C04_joint_velocity",
    "C04_trajectory_velocity",
    "C04_reversed_spherical_refuted",
    "C04_planar_rate_refuted"
   ],
   "note": "The tree part holds for all joints. The joint part is proved for every forward joint and for reversed Rev, Prism, Cylindrical and Fixed joints; it is false for reversed spherical joints (refuted by a witness), and alpha is not the rate of q for planar joints (witness)."
  },
  {
   "property": "C05",
   "status": "proved",
   "theorems": [
    "C05_forward_acceleration_path"
   ],
   "note": ""
  },
  {
   "property": "C06",
   "status": "proved",
   "theorems": [
    "C06_torque_is_H_alphaD_plus_C",
    "C06_object_shape"
   ],
   "note": "after forwardKinematics and forwardVelocity, on every well-formed multibody"
  },
  {
   "property": "C07",
   "status": "proved",
   "theorems": [
    "C07_mass_matrix_symmetric"
   ],
   "note": ""
  },
  {
   "property": "C08",
   "status": "proved",
   "theorems": [
    "C08_kinetic_energy",
    "C08_kinetic_energy_any_rates"
   ],
   "note": ""
  },
  {
   "property": "C09",
   "status": "proved",
   "theorems": [
    "C09_mass_matrix_psd",
    "C09_physical_bodies_psd",
    "C09_mass_matrix_pd"
   ],
   "note": ""
  },
  {
   "property": "C10",
   "status": "proved",
   "theorems": [
    "C10_forward_then_inverse",
    "C10_inverse_then_forward"
   ],
   "note": "Eigen's LDLT is a parameter assumed to solve symmetric positive definite systems; a concrete solver meeting the assumption is given"
  },
  {
   "property": "C11",
   "status": "proved",
   "theorems": [
    "C11_external_wrench_virtual_work",
    "C11_no_inertia_is_opposite"
   ],
   "note": "the torques of inverseDynamicsNoInertia have the opposite sign of the contribution in inverseDynamics; proved as such and recorded as a finding"
  },
  {
   "property": "C12",
   "status": "proved",
   "theorems": [
    "C12_power_balance",
    "C12_accelerations"
   ],
   "note": ""
  },
  {
   "property": "C13",
   "status": "proved",
   "theorems": [
    "C13_object",
    "C13_regressor_torque",
    "C13_depends_on_kinematics_only"
   ],
   "note": ""
  },
  {
   "property": "C14",
   "status": "proved",
   "theorems": [
    "C14_momentum_is_linear",
    "C14_inertia_round_trip",
    "C14_vector_round_trip",
    "C14_safe_version"
   ],
   "note": ""
  },
  {
   "property": "C15",
   "status": "proved",
   "theorems": [
    "C15_constructor",
    "C15_coriolis_times_alpha"
   ],
   "note": "For every robot whose body names lead back to their bodies (Coriolis looks its Jacobians up by name) and whose massless bodies have no first moment of mass."
  },
  {
   "property": "C16",
   "status": "proved",
   "theorems": [
    "C16_statics_is_dynamics_at_rest"
   ],
   "note": ""
  },
  {
   "property": "C17",
   "status": "proved",
   "theorems": [
    "C17_jacobian_times_alpha",
    "C17_jacobian_any_rates",
    "C17_jacobian_in_frame",
    "C17_linear_rows_are_derivative"
   ],
   "note": "Jacobian built with the one-body constructor; jacobian_of is what that constructor yields (C18). The derivative form is for regular joints (see C04)."
  },
  {
   "property": "C18",
   "status": "proved",
   "theorems": [
    "C18_jacobian_path",
    "C18_unknown_body",
    "C18_other_joints_do_not_move_it"
   ],
   "note": ""
  },
  {
   "property": "C19",
   "status": "proved",
   "theorems": [
    "C19_acceleration",
    "C19_jacobianDot_times_alpha",
    "C19_jacobianDot_is_derivative",
    "C19_precomputed"
   ],
   "note": "The derivative form is for regular joints (see C04)."
  },
  {
   "property": "C20",
   "status": "proved",
   "theorems": [
    "C20_full_jacobian",
    "C20_add_full_jacobian"
   ],
   "note": ""
  },
  {
   "property": "C21",
   "status": "proved",
   "theorems": [
    "C21_expand",
    "C21_expand_add"
   ],
   "note": ""
  },
  {
   "property": "C22",
   "status": "proved",
   "theorems": [
    "C22_translate",
    "C22_translate_body",
    "C22_set_point"
   ],
   "note": ""
  },
  {
   "property": "C23",
   "status": "partial",
   "theorems": [
    "C23_constructor",
    "C23_relative_velocity_partial",
    "C23_derivative_partial",
    "C23_relative_velocity_at_partial",
    "C23_root_added",
    "C23_root_refuted",
    "C23_ancestor_refuted",
    "C23_same_body_undefined"
   ],
   "note": "Proved when the reference is an ancestor of the body, when they have a common ancestor other than the root, and for a fixed root. Refuted when they meet at a moving root only, and when the body is an ancestor of the reference; undefined behaviour for a body relative to itself. Robots with one root."
  },
  {
   "property": "C24",
   "status": "proved",
   "theorems": [
    "C24_position",
    "C24_velocity",
    "C24_acceleration",
    "C24_velocity_is_derivative",
    "C24_acceleration_is_derivative"
   ],
   "note": "Mass-weighted means of the body CoM positions/velocities/accelerations and their time derivatives; com_of mb c says that c i is a centre of mass of body i (first moment = mass * c i)."
  },
  {
   "property": "C25",
   "status": "proved",
   "theorems": [
    "C25_constructors",
    "C25_jacobian_times_alpha",
    "C25_jacobian_any_rates"
   ],
   "note": "For both constructors, arbitrary weights and stale buffers, and arbitrary rates."
  },
  {
   "property": "C26",
   "status": "proved",
   "theorems": [
    "C26_dummy_constructors",
    "C26_algorithms_agree"
   ],
   "note": "Needs distinct body names: CoMJacobianDummy builds its Jacobians by name."
  },
  {
   "property": "C27",
   "status": "proved",
   "theorems": [
    "C27_acceleration"
   ],
   "note": ""
  },
  {
   "property": "C28",
   "status": "proved",
   "theorems": [
    "C28_sub_bodies"
   ],
   "note": ""
  },
  {
   "property": "C29",
   "status": "partial",
   "theorems": [
    "C29_safe_weight_partial",
    "C29_safe_weight_refuted"
   ],
   "note": "Refuted: sWeight compares the OLD weight vector with the number of bodies, so a new vector that is too short is read out of bounds and one too long is accepted. A vector of the right size is installed and a robot with another number of bodies is rejected (partial theorem)."
  },
  {
   "property": "C30",
   "status": "proved",
   "theorems": [
    "C30_constructors",
    "C30_momentum",
    "C30_linear_part",
    "C30_matrix_times_alpha",
    "C30_matrix_any_rates"
   ],
   "note": "Constructor needs distinct body names."
  },
  {
   "property": "C31",
   "status": "proved",
   "theorems": [
    "C31_derivative_splits",
    "C31_is_derivative"
   ],
   "note": ""
  },
  {
   "property": "C32",
   "status": "partial",
   "theorems": [
    "C32_reversed_pose",
    "C32_reversing_twice",
    "C32_reversed_motion_partial",
    "C32_reversed_motion_refuted"
   ],
   "note": "Pose inversion proved for every type. The velocity claim is proved for Rev, Prism, Cylindrical and Fixed and refuted by witnesses for Spherical, Planar and Free."
  },
  {
   "property": "C33",
   "status": "proved",
   "theorems": [
    "C33_sizes",
    "C33_zero_pose",
    "C33_zero_motion"
   ],
   "note": ""
  },
  {
   "property": "C34",
   "status": "partial",
   "theorems": [
    "C34_mimic_zero_partial",
    "C34_mimic_zero_refuted"
   ],
   "note": "Refuted for spherical and free joints (offset added to the quaternion); the partial theorem gives the exact condition."
  },
  {
   "property": "C35",
   "status": "proved",
   "theorems": [
    "C35_safe_joint_functions"
   ],
   "note": ""
  },
  {
   "property": "C36",
   "status": "proved",
   "theorems": [
    "C36_positions_tile"
   ],
   "note": "for every result of the MultiBody constructor"
  },
  {
   "property": "C37",
   "status": "proved",
   "theorems": [
    "C37_index_by_name",
    "C37_absent_names",
    "C37_last_of_duplicates"
   ],
   "note": "also shows that with duplicate names the last one wins"
  },
  {
   "property": "C38",
   "status": "proved",
   "theorems": [
    "C38_param_round_trip",
    "C38_dof_round_trip",
    "C38_safe_throw",
    "C38_plain_versions"
   ],
   "note": ""
  },
  {
   "property": "C39",
   "status": "proved",
   "theorems": [
    "C39_fresh_configuration",
    "C39_fresh_values",
    "C39_zero"
   ],
   "note": ""
  },
  {
   "property": "C40",
   "status": "proved",
   "theorems": [
    "C40_convert_by_name",
    "C40_round_trip",
    "C40_safe_constructor"
   ],
   "note": "restoring needs the joint to be first in neither multibody"
  },
  {
   "property": "C41",
   "status": "partial",
   "theorems": [
    "C41_safe_functions",
    "C41_safe_forward_kinematics_partial",
    "C41_forward_kinematics_refuted",
    "C41_checks_exact",
    "C41_safe_inverse_kinematics_partial",
    "C41_inverse_kinematics_refuted"
   ],
   "note": "proved for velocity, acceleration, inverse and forward dynamics, H and C; refuted for sForwardKinematics, which does not check motionSubspace (witness), and proved for it when the number of motion subspaces is right; the other safe functions (CoM, Jacobian, IK, ...) are treated with their own properties sInverseKinematics does not check alpha, bodyVel and jointVelocity: C41_inverse_kinematics_refuted."
  },
  {
   "property": "C42",
   "status": "proved",
   "theorems": [
    "C42_unique_names"
   ],
   "note": "every history of the eleven operations, exceptions caught and history continued"
  },
  {
   "property": "C43",
   "status": "partial",
   "theorems": [
    "C43_build",
    "C43_link_unknown",
    "C43_remove_merge_partial",
    "C43_joint_used_twice_refuted"
   ],
   "note": "addBody, addJoint, linkBodies: any state. removeJoint(s) and mergeSubBodies: on consistent cycle-free graphs. Refuted when one joint is given to two links: removeJoint throws after removing part of the graph."
  },
  {
   "property": "C44",
   "status": "proved",
   "theorems": [
    "C44_tree"
   ],
   "note": "proved for every consistent graph without cycles (SpecGraph.graph_ok, cycle_free)"
  },
  {
   "property": "C45",
   "status": "partial",
   "theorems": [
    "C45_terminates",
    "C45_cycle_diverges",
    "C45_double_link_refuted"
   ],
   "note": "returns on every cycle-free graph; never returns when the root reaches a cycle of at least three bodies; refuted for two bodies linked twice: makeMultiBody returns with the body duplicated"
  },
  {
   "property": "C46",
   "status": "proved",
   "theorems": [
    "C46_root_independent"
   ],
   "note": "proved for every consistent graph without cycles (SpecGraph.graph_ok, cycle_free)"
  },
  {
   "property": "C47",
   "status": "proved",
   "theorems": [
    "C47_total_mass",
    "C47_any_root",
    "C47_merge"
   ],
   "note": "Mass of the multibody = sum over the connected bodies, for every root; mergeSubBodies keeps it and adds the placed inertias."
  },
  {
   "property": "C48",
   "status": "partial",
   "theorems": [
    "C48_remove",
    "C48_removes",
    "C48_unlinked_refuted",
    "C48_root_name_refuted"
   ],
   "note": "Proved on consistent cycle-free graphs whose root has no link named like the root joint. Refuted: a joint not linked (or not reachable from the root) stays; a link of the root named like the root joint is never found."
  },
  {
   "property": "C49",
   "status": "partial",
   "theorems": [
    "C49_independent",
    "C49_copy_partial",
    "C49_assign_partial",
    "C49_self",
    "C49_dangling_refuted"
   ],
   "note": "Independence of graphs (every history) and self assignment proved in full; copies look like the original when the links of its bodies lead to its bodies. Refuted for the graph left behind by a removeJoint that threw midway (the copy holds a null pointer)."
  },
  {
   "property": "C50",
   "status": "partial",
   "theorems": [
    "C50_list_partial",
    "C50_unknown",
    "C50_all_partial",
    "C50_all_empty_refuted",
    "C50_lookup_refuted",
    "C50_further_refuted"
   ],
   "note": "makeMultiBody of the result has exactly the named joints fixed. Refuted by witnesses: an empty list with fixAllJoints fixes nothing on the links, jointByName is not updated, and after fixAllJoints removeJoint is undefined behaviour."
  },
  {
   "property": "C51",
   "status": "proved",
   "theorems": [
    "C51_maps"
   ],
   "note": "proved for every consistent graph without cycles (SpecGraph.graph_ok, cycle_free)"
  },
  {
   "property": "C52",
   "status": "proved",
   "theorems": [
    "C52_integration",
    "C52_returns",
    "C52_step_0",
    "C52_checked"
   ],
   "note": "Reals; SO3 sinc exact; step 0 also for curved joints."
  },
  {
   "property": "C53",
   "status": "partial",
   "theorems": [
    "C53_SO3",
    "C53_spherical",
    "C53_free_partial",
    "C53_simulation_partial",
    "C53_negative_step_refuted"
   ],
   "note": "Proved for any step for spherical joints and step >= 0 for free and planar ones; a negative step with a turning free joint is undefined behaviour (refuted)."
  },
  {
   "property": "C54",
   "status": "partial",
   "theorems": [
    "C54_bounded_partial",
    "C54_constructed",
    "C54_final_pose_refuted"
   ],
   "note": "Proved for paths without spherical or free joints (with one, see C55). The flag concerns the pose before the last update of q: C54_final_pose_refuted returns true with the final pose not within the threshold."
  },
  {
   "property": "C55",
   "status": "partial",
   "theorems": [
    "C55_curved_joints_refuted",
    "C54_bounded_partial"
   ],
   "note": "Refuted for every path with a spherical or free joint (out-of-range read in the first iteration). C54_bounded_partial is the part that holds: paths of other joints get one update per dof and no out-of-range access."
  },
  {
   "property": "C56",
   "status": "proved",
   "theorems": [
    "C56_zmp",
    "C56_zmp_of_force",
    "C56_versions_agree",
    "C56_tilted_gravity_refuted"
   ],
   "note": "The code ignores the horizontal components of gravity: C56_tilted_gravity_refuted shows the hypothesis of vertical gravity is needed."
  },
  {
   "property": "C57",
   "status": "proved",
   "theorems": [
    "C57_image_velocity",
    "C57_overload",
    "C57_dot"
   ],
   "note": "For a static point of non-zero depth and any motion of the camera."
  },
  {
   "property": "C58",
   "status": "partial",
   "theorems": [
    "C58_angle_axis_partial",
    "C58_unit_axis_refuted",
    "C58_pose_jacobian_partial",
    "C58_pose_jacobian_refuted"
   ],
   "note": "For every rotation the angle and the direction of the axis are right, but the axis is 2 sin(a) n instead of the unit vector n (refuted). poseJacobian is the interaction matrix when that axis happens to have norm 1, and is not in general (refuted). sinc is the exact function."
  },
  {
   "property": "C59",
   "status": "partial",
   "theorems": [
    "C59_rpy_meaning",
    "C59_rpy_agree_partial",
    "C59_rpy_refuted",
    "C59_yaml_frame",
    "C59_urdf_frame_partial",
    "C59_urdf_axis_partial",
    "C59_urdf_refuted",
    "C59_urdf_digits_refuted"
   ],
   "note": "YAML frames round trip for every rotation. The two formats' rpy are different conventions (refuted), so URDF frames round trip exactly when the conventions agree on the written angles, as for rotations about one axis; to_urdf writes six digits (refuted for exactness)."
  },
  {
   "property": "C60",
   "status": "partial",
   "theorems": [
    "C60_urdf_body_partial",
    "C60_yaml_body_partial",
    "C60_no_inertia",
    "C60_urdf_point_mass_refuted",
    "C60_urdf_massless_refuted",
    "C60_yaml_point_mass_refuted",
    "C60_urdf_digits_refuted"
   ],
   "note": "Proved for bodies with mass, an inertia that is not negligible and a visible centre of mass. Refuted for point masses (URDF: null pointer; YAML: unit inertia), for massless bodies with inertia in URDF, and because of six digits in URDF."
  },
  {
   "property": "C61",
   "status": "partial",
   "theorems": [
    "C61_one_dof_partial",
    "C61_many_dof_partial",
    "C61_in_range_partial",
    "C61_prismatic_refuted",
    "C61_short_vector_refuted"
   ],
   "note": "Exact result of the limits proved. Refuted: prismatic limits are scaled too, and short vectors are accessed out of range when angles are in degrees."
  },
  {
   "property": "C62",
   "status": "proved",
   "theorems": [
    "C62_prefix_path"
   ],
   "note": ""
  },
  {
   "property": "C63",
   "status": "proved",
   "theorems": [
    "C63_gravity_change",
    "C63_gravity_as_weight"
   ],
   "note": ""
  },
  {
   "property": "C64",
   "status": "partial",
   "theorems": [
    "C64_object",
    "C64_torque_derivative_partial",
    "C64_constant_forces_partial",
    "C64_prismatic_refuted",
    "C64_force_jacobian_sign_refuted"
   ],
   "note": "Along every movement, jointTorqueDiff times the speeds is the derivative of the torques of inverseStatics, if joints between two bodies are revolute or fixed and the Jacobians given are those of the opposite of the forces. Refuted for a sliding inner joint and for Jacobians of the forces themselves."
  },
  {
   "property": "C65",
   "status": "proved",
   "theorems": [
    "C65_acceleration_is_derivative"
   ],
   "note": "All trees and trajectories; derivatives are entrywise derivable_pt_lim."
  },
  {
   "property": "C66",
   "status": "proved",
   "theorems": [
    "C66_vector_jacobian"
   ],
   "note": ""
  },
  {
   "property": "C67",
   "status": "partial",
   "theorems": [
    "C67_complete_partial",
    "C67_complete_no_wrench",
    "C67_complete_altitude_refuted",
    "C67_complete_acceleration_refuted"
   ],
   "note": "Refuted by witness for altitude <> 0 and for a vertical acceleration; true at altitude 0 with vertical comA equal to g, and without wrench."
  },
  {
   "property": "C68",
   "status": "proved",
   "theorems": [
    "C68_mass_matrix_rate"
   ],
   "note": "Joints whose alpha is the rate of the joint (regular): the reversed Spherical/Planar/Free ones are excluded, as in C04."
  },
  {
   "property": "C69",
   "status": "proved",
   "theorems": [
    "C69_history"
   ],
   "note": "invariant over histories of any length, all graphs of the program"
  },
  {
   "property": "C70",
   "status": "proved",
   "theorems": [
    "C70_exact_motion"
   ],
   "note": "Every joint type; steady motion as defined in SpecInteg.v."
  },
  {
   "property": "C71",
   "status": "proved",
   "theorems": [
    "C71_on_target"
   ],
   "note": "For paths without spherical or free joints; rotation error and solver are parameters."
  },
  {
   "property": "C72",
   "status": "partial",
   "theorems": [
    "C72_depth_partial",
    "C72_order_refuted"
   ],
   "note": "The row is right when the linear velocity comes first and the image point (not its speed, as the parameter is named) is passed; refuted for the layout of imagePointJacobian."
  },
  {
   "property": "C73",
   "status": "proved",
   "theorems": [
    "C73_from_file",
    "C73_extension_exists"
   ],
   "note": ""
  },
  {
   "property": "C74",
   "status": "partial",
   "theorems": [
    "C74_joint_urdf_partial",
    "C76_planar_refuted"
   ],
   "note": "URDF joints one by one; numbers are assumed to be printed exactly. Planar joints are written but read back as fixed."
  },
  {
   "property": "C75",
   "status": "proved",
   "theorems": [
    "C75_urdf_document",
    "C75_yaml_document"
   ],
   "note": "Documents of the abstract syntax the XML and YAML libraries deliver, with default parameters that keep all links. What an element says (type, axis, frame, mimic, limits, inertia) is specified in SpecElem.v without the functions of the readers."
  },
  {
   "property": "C76",
   "status": "partial",
   "theorems": [
    "C76_yaml_round_trip_partial",
    "C76_urdf_round_trip_partial",
    "C76_urdf_reread_partial",
    "C76_yaml_reread_partial",
    "C76_written",
    "C76_urdf_infinite_limits_refuted",
    "C76_planar_refuted",
    "C76_yaml_floating_refuted",
    "C76_yaml_mimic_refuted",
    "C76_continuous_limits_refuted",
    "C76_no_bounds_refuted",
    "C76_other_base_refuted"
   ],
   "note": "Holds for robots the format can describe; numbers are assumed to be printed exactly in URDF. Which robots are written is proved for both formats. Refuted outside: infinite limits (URDF), planar joints, floating and mimic joints (YAML), velocity and torque limits of continuous joints, limits without bounds (undefined behaviour); see also C59, C60 and C61. C76_other_base_refuted: with another base link the frames written are not those of the robot."
  },
  {
   "property": "C77",
   "status": "partial",
   "theorems": [
    "C77_root_chain",
    "C77_reference_partial",
    "C77_turn_exact",
    "C77_turn_refuted"
   ],
   "note": "Proved without reference body (poses, velocities, Jacobian). With a reference: poses when the placements at the turn commute and the root is not the meeting point or is fixed; velocities when the reference is an ancestor. Refuted when the placements do not commute (wrong order of composition at the turn)."
  },
  {
   "property": "C78",
   "status": "partial",
   "theorems": [
    "C78_objects_fit",
    "C78_jacobians",
    "C78_objects_stay",
    "C78_matrices",
    "C78_velocities",
    "C78_normal_accelerations_partial",
    "C78_normal_accelerations_refuted",
    "C78_other_robot_partial",
    "C78_other_robot_refuted",
    "C78_same_body_refuted"
   ],
   "note": "Holds for objects of the robot, except that the normal accelerations read joint velocities whose size nothing checks (refuted), objects of other robots are only rejected when a joint index does not exist (refuted), and a body relative to itself is undefined behaviour (refuted)."
  },
  {
   "property": "C79",
   "status": "partial",
   "theorems": [
    "C79_objects_fit",
    "C79_centre_of_mass",
    "C79_momentum",
    "C79_com_jacobian_dummy",
    "C79_com_jacobian",
    "C79_update_inertias",
    "C79_momentum_matrix",
    "C79_normal_terms_partial",
    "C79_normal_terms_refuted",
    "C79_statics",
    "C79_identification",
    "C79_converter_partial",
    "C79_converter_refuted"
   ],
   "note": "Holds except for the normal acceleration of CoMJacobian and the normal momentum derivative, which read joint velocities whose size nothing checks (refuted), and for two configurations that are both too short for the converter (refuted)."
  },
  {
   "property": "C80",
   "status": "partial",
   "theorems": [
    "C80_urdf_elements",
    "C80_urdf_unique",
    "C80_urdf_readable",
    "C80_yaml_elements",
    "C80_yaml_readable",
    "C80_urdf_in_range_partial",
    "C80_yaml_in_range_partial",
    "C80_urdf_mesh_refuted",
    "C80_yaml_size_refuted",
    "C80_yaml_scale_refuted",
    "C80_formats_refuted"
   ],
   "note": "What is read, and which documents are read, is proved for both formats. Refuted: malformed meshes and sizes are undefined behaviour, a plain number as scale is ignored, and the two formats choose materials differently."
  },
  {
   "property": "C81",
   "status": "partial",
   "theorems": [
    "C81_urdf_round_trip_partial",
    "C81_yaml_round_trip_partial",
    "C81_complete_partial",
    "C81_refuted",
    "C81_urdf_frame_refuted"
   ],
   "note": "Proved for elements without a name, of known shape, with prefixed files, and frames the format describes (all rotations in YAML); refuted for the others."
  },
  {
   "property": "C82",
   "status": "partial",
   "theorems": [
    "C82_urdf_partial",
    "C82_yaml_partial",
    "C82_urdf_gap_refuted",
    "C82_yaml_short_refuted",
    "C82_urdf_circle_refuted",
    "C82_yaml_circle_refuted"
   ],
   "note": "Safe and usable for every URDF document that has the elements the reader takes for granted and every YAML document whose limits in degrees are not short. Refuted for the others: null dereference, out-of-range access, endless recursion on a circle of links. Visual elements are in C80."
  },
  {
   "property": "C83",
   "status": "partial",
   "theorems": [
    "C83_uses",
    "C83_urdf_to_yaml_partial",
    "C83_yaml_to_urdf_partial",
    "C83_comment_refuted",
    "C83_both_refuted",
    "C83_late_refuted"
   ],
   "note": "Source, destination and format are right for every text and environment in the four documented uses; the robot is preserved when both formats can describe it (C76). Refuted for comments that contain the word robot, for standard input together with two files, and for input that arrives late. Turning text into documents is left to the libraries."
  },
  {
   "property": "C84",
   "status": "proved",
   "theorems": [
    "C84_rate_is_derivative",
    "C84_transmitted_wrench",
    "C84_floating_inverse",
    "C84_floating_forward",
    "C84_com_acceleration",
    "C84_momentum_balance",
    "C84_momentum_conserved",
    "C84_free_fall"
   ],
   "note": "Along trajectories the joints must be regular (all but the reversed Spherical, whose pose is wrong, C03/C04). The linear solver is any function that solves positive definite systems."
  },
  {
   "property": "C85",
   "status": "proved",
   "theorems": [
    "C85_energy_balance",
    "C85_energy_conserved"
   ],
   "note": "Regular joints, constant gravity, positive definite inertias."
  },
  {
   "property": "C86",
   "status": "partial",
   "theorems": [
    "C86_jacobian",
    "C86_jacobian_vectors",
    "C86_vector_jacobian_partial",
    "C86_vector_jacobian_refuted",
    "C86_inverse_dynamics",
    "C86_forward_dynamics_partial",
    "C86_forward_dynamics_refuted",
    "C86_identification",
    "C86_com_dummy",
    "C86_com",
    "C86_momentum",
    "C86_coriolis",
    "C86_statics",
    "C86_statics_derivatives_partial",
    "C86_statics_derivatives_refuted",
    "C86_inverse_kinematics"
   ],
   "note": "Proved for all objects, any histories and any configuration of the last call. Refuted: the angular rows of vectorJacobian, forwardDynamics with fewer torques than degrees of freedom, and the derivatives of InverseStatics when the widths of the Jacobians of the forces grow."
  },
  {
   "property": "C87",
   "status": "proved",
   "theorems": [
    "C87_make",
    "C87_kinematics",
    "C87_inverse_dynamics",
    "C87_forward_dynamics",
    "C87_simulation",
    "C87_jacobians",
    "C87_com_momentum",
    "C87_coriolis"
   ],
   "note": "Equality of outcomes, including failures, for a rigid change of the world frame. The Coriolis theorem is for the Jacobians the constructor makes (reference body 0 or the world). Frame changes of the identification matrix and of the momentum matrix object are not stated."
  },
  {
   "property": "C88",
   "status": "proved",
   "theorems": [
    "C88_branches_uncoupled",
    "C88_mass_matrix_base",
    "C88_bias_base",
    "C88_torques_base",
    "C88_accelerations_base"
   ],
   "note": "For well formed trees with rigid frames and valid configurations, after forwardKinematics and forwardVelocity."
  },
  {
   "property": "C89",
   "status": "partial",
   "theorems": [
    "C89_precision_partial",
    "C89_steady_turn"
   ],
   "note": "Proved for joints that turn about one axis and whose position has its largest fifth derivative at an end of the step, and for every joint with constant angular velocity. Missing: axes that turn (the orientation itself is approximate), and derivatives larger inside the step."
  },
  {
   "property": "C90",
   "status": "partial",
   "theorems": [
    "C90_urdf_partial",
    "C90_yaml_partial",
    "C90_urdf_inverse",
    "C90_yaml_inverse",
    "C90_urdf_refuted",
    "C90_yaml_refuted",
    "C90_untransformed",
    "C90_conventions_agree"
   ],
   "note": "Proved when the rotation of the inertial frame is its own inverse; refuted for the others (turned the wrong way, exact result in the _inverse theorems), given the definition of sva::inertiaToOrigin. C90_conventions_agree says where another formula for it would give the same."
  },
  {
   "property": "C91",
   "status": "partial",
   "theorems": [
    "C91_accessors",
    "C91_put_body",
    "C91_put_transform",
    "C91_put_all",
    "C91_edits_keep_well_formed",
    "C91_names_partial",
    "C91_renaming_refuted",
    "C91_kinematics_ignore_bodies",
    "C91_python_round_trip",
    "C91_python_write"
   ],
   "note": "Accessors, setters and edits as stated. Names are proved for edits that keep the names of bodies; the general claim is refuted: the table of names is not updated."
  },
  {
   "property": "C92",
   "status": "partial",
   "theorems": [
    "C92_convert_joint",
    "C92_convert_joint_new_partial",
    "C92_convert_joint_new_refuted",
    "C92_checked_refuted"
   ],
   "note": "convertJoint(from, to) in full. The version returning a new vector is proved for as many joints and refuted otherwise; the checked version is refuted for vectors that are too short."
  },
  {
   "property": "C93",
   "status": "proved",
   "theorems": [
    "C93_urdf_filter",
    "C93_yaml_filter",
    "C93_urdf_pruned",
    "C93_yaml_pruned"
   ],
   "note": "The document has names for its links and joints (a YAML document may omit them)."
  },
  {
   "property": "C94",
   "status": "proved",
   "theorems": [
    "C94_urdf_base_link",
    "C94_yaml_base_link",
    "C94_urdf_unknown_base",
    "C94_yaml_unknown_base"
   ],
   "note": "Poses are compared with unit axes, as C46 does."
  },
  {
   "property": "C95",
   "status": "proved",
   "theorems": [
    "C95_kinematics",
    "C95_dynamics",
    "C95_momentum",
    "C95_fix_joints"
   ],
   "note": "Kinematics, momentum, torques, mass matrix and bias for any set of held joints; C95_fix_joints says that fixJoints makes such a robot (joints that mimic no other, at zeroParam)."
  },
  {
   "property": "C96",
   "status": "proved",
   "theorems": [
    "C96_kinematics",
    "C96_dynamics",
    "C96_forward_dynamics",
    "C96_reversed"
   ],
   "note": "Real arithmetic; forward dynamics for positive definite inertias and any solver that solves such systems."
  },
  {
   "property": "C97",
   "status": "proved",
   "theorems": [
    "C97_kinematics",
    "C97_dynamics",
    "C97_forward_dynamics"
   ],
   "note": "Real arithmetic; forward dynamics for positive definite inertias and any solver that solves such systems."
  },
  {
   "property": "C98",
   "status": "proved",
   "theorems": [
    "C98_kinematics",
    "C98_dynamics",
    "C98_forward_dynamics",
    "C98_jacobian",
    "C98_com_jacobian",
    "C98_momentum_matrix",
    "C98_no_inertia"
   ],
   "note": "For any two numberings of the same robot in the same state. Kinematics without any condition on masses or rotations; the mass matrix and the Jacobians for rigid joints and unit quaternions; forward dynamics with positive definite inertias and any correct solver."
  },
  {
   "property": "C99",
   "status": "proved",
   "theorems": [
    "C99_kinematics",
    "C99_dynamics",
    "C99_forward_dynamics",
    "C99_jacobian",
    "C99_momentum"
   ],
   "note": "For revolute, prismatic and cylindrical joints."
  }
 ]
}