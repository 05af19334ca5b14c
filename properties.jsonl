{"id": "C01", "title": "Forward kinematics composes joint poses along the path to the root", "statement": "After forwardKinematics(mb, mbc) every body's world pose bodyPosW[i] equals the composition, from the world to body i, of joint_pose(q_k)*X_t(k) over the joints k on the path from the root to i; jointConfig, parentToSon and motionSubspace hold the per-joint factors, and no other field of mbc (q, alpha, alphaD, velocities, accelerations, forces, torques, gravity) changes.", "quantifier": "every tree topology (any number of bodies, any depth, any joint-type mix), every geometry, every configuration", "why_tests_cant": "Unit tests fix a handful of robots and random configurations; the claim is an identity over unboundedly many topologies and a continuum of values.", "anchors": ["src/RBDyn/FK.cpp:forwardKinematics", "src/RBDyn/RBDyn/Joint.h:Joint::pose"]}
{"id": "C02", "title": "World poses stay rigid transforms", "statement": "If every joint axis is a unit vector, every static transform is a proper rigid transform and every spherical/free joint quaternion in q has norm one, then after forwardKinematics the rotation part of every bodyPosW and parentToSon is a proper rotation (orthonormal, determinant +1).", "quantifier": "every tree topology (any number of bodies, any depth, any joint-type mix), every geometry, every configuration with unit quaternions", "why_tests_cant": "Unit tests fix a handful of robots and random configurations; the claim is an identity over unboundedly many topologies and a continuum of values.", "anchors": ["src/RBDyn/FK.cpp:forwardKinematics", "src/RBDyn/RBDyn/Joint.h:Joint::pose, Joint::QuatToE"]}
{"id": "C03", "title": "Forward velocity is the sum of transported joint velocities", "statement": "After forwardKinematics and forwardVelocity, the spatial velocity bodyVelB[i] equals the sum, over the joints k on the path from the root to i, of joint k's velocity S_k*alpha_k transported to frame i; bodyVelW[i] is the same velocity with axes rotated to the world at the body origin. Only jointVelocity, bodyVelW and bodyVelB change.", "quantifier": "every tree topology (any number of bodies, any depth, any joint-type mix), every geometry, every configuration and every alpha", "why_tests_cant": "Unit tests fix a handful of robots and random configurations; the claim is an identity over unboundedly many topologies and a continuum of values.", "anchors": ["src/RBDyn/FV.cpp:forwardVelocity"]}
{"id": "C04", "title": "Velocities are the time derivatives of poses", "statement": "For a differentiable joint trajectory whose joint poses move with the joint velocity returned by motion(alpha), the world position of every body origin has time derivative equal to the linear part of bodyVelW, and the world rotation has derivative given by the angular part of bodyVelW. The joint poses do move so when the parameters follow the kinematic law of the joint type (q' = alpha for Rev, Prism and Cylindrical; the quaternion rate for Spherical and Free; the rotating-frame rate for Planar), for joints of every type, forward or reversed.", "quantifier": "every tree, every differentiable trajectory, every time, every joint type and direction", "why_tests_cant": "A limit over all step sizes at every time of every trajectory; finite differences only approximate it at sampled points.", "anchors": ["src/RBDyn/FV.cpp:forwardVelocity", "src/RBDyn/RBDyn/Joint.h:Joint::motion, Joint::pose"]}
{"id": "C05", "title": "Forward acceleration recursion and its frame condition", "statement": "forwardAcceleration(mb, mbc, A_0) fills bodyAccB[i] with X_i*bodyAccB[parent] + S_i*alphaD_i + tangential joint acceleration + bodyVelB[i] x jointVelocity[i] (with bodyPosW[0-based root] mapping A_0 for root bodies); it is affine in alphaD with the body Jacobian as linear part, and writes nothing but bodyAccB.", "quantifier": "every tree topology (any number of bodies, any depth, any joint-type mix), every geometry, every configuration, every alpha, alphaD, A_0", "why_tests_cant": "Unit tests fix a handful of robots and random configurations; the claim is an identity over unboundedly many topologies and a continuum of values.", "anchors": ["src/RBDyn/FA.cpp:forwardAcceleration"]}
{"id": "C06", "title": "Inverse dynamics equals mass matrix times acceleration plus bias", "statement": "For every tree and state, the stacked joint torques written by InverseDynamics::inverseDynamics equal H*alphaD + C where H and C are the matrices ForwardDynamics::computeH and computeC compute for the same state (same gravity, velocities and external forces).", "quantifier": "every tree topology (any number of bodies, any depth, any joint-type mix), every geometry, every configuration, every alpha, alphaD, external wrenches and gravity", "why_tests_cant": "Unit tests fix a handful of robots and random configurations; the claim is an identity over unboundedly many topologies and a continuum of values.", "anchors": ["src/RBDyn/ID.cpp:InverseDynamics::inverseDynamics", "src/RBDyn/FD.cpp:ForwardDynamics::computeH, computeC"]}
{"id": "C07", "title": "The mass matrix is symmetric", "statement": "ForwardDynamics::H() is a symmetric nrDof x nrDof matrix after computeH, for every tree and configuration.", "quantifier": "every tree topology (any number of bodies, any depth, any joint-type mix), every geometry, every configuration", "why_tests_cant": "Unit tests fix a handful of robots and random configurations; the claim is an identity over unboundedly many topologies and a continuum of values.", "anchors": ["src/RBDyn/FD.cpp:ForwardDynamics::computeH"]}
{"id": "C08", "title": "The mass matrix gives the kinetic energy", "statement": "For every generalized velocity alpha, alpha^T H alpha equals the sum over bodies of v_i^T I_i v_i where v_i is the body velocity bodyVelB computed by forwardVelocity for alpha (twice the kinetic energy).", "quantifier": "every tree topology (any number of bodies, any depth, any joint-type mix), every geometry, every configuration and every alpha", "why_tests_cant": "Unit tests fix a handful of robots and random configurations; the claim is an identity over unboundedly many topologies and a continuum of values.", "anchors": ["src/RBDyn/FD.cpp:ForwardDynamics::computeH", "src/RBDyn/FV.cpp:forwardVelocity"]}
{"id": "C09", "title": "The mass matrix is positive semi-definite", "statement": "If the spatial inertia of every body is positive semi-definite (in particular any body with mass >= 0 and a physically consistent inertia), then x^T H x >= 0 for every vector x.", "quantifier": "every tree topology (any number of bodies, any depth, any joint-type mix), every geometry, every configuration and every vector x", "why_tests_cant": "Unit tests fix a handful of robots and random configurations; the claim is an identity over unboundedly many topologies and a continuum of values.", "anchors": ["src/RBDyn/FD.cpp:ForwardDynamics::computeH"]}
{"id": "C10", "title": "Forward and inverse dynamics are inverse of each other", "statement": "If forwardDynamics succeeds (the linear solve returns a solution of H x = tau - C), then running inverseDynamics on the resulting alphaD reproduces exactly the jointTorque that was given; only alphaD is written by forwardDynamics.", "quantifier": "every tree topology (any number of bodies, any depth, any joint-type mix), every geometry, every configuration, every torque, velocity, external wrench and gravity", "why_tests_cant": "Unit tests fix a handful of robots and random configurations; the claim is an identity over unboundedly many topologies and a continuum of values.", "anchors": ["src/RBDyn/FD.cpp:ForwardDynamics::forwardDynamics", "src/RBDyn/ID.cpp:InverseDynamics::inverseDynamics"]}
{"id": "C11", "title": "External wrenches enter the torques by virtual work", "statement": "Changing the external wrenches mbc.force by df changes the inverse-dynamics torque in the direction beta by minus the sum over bodies of df_i . (velocity of body i, expressed at the world origin in world axes, produced by generalized velocity beta). inverseDynamicsNoInertia returns the work of the wrenches alone; its sign is the opposite of their contribution to inverseDynamics (see the findings in DESIGN.md).", "quantifier": "every tree topology (any number of bodies, any depth, any joint-type mix), every geometry, every configuration, every wrench and every virtual velocity beta", "why_tests_cant": "Unit tests fix a handful of robots and random configurations; the claim is an identity over unboundedly many topologies and a continuum of values.", "anchors": ["src/RBDyn/ID.cpp:InverseDynamics::inverseDynamics, inverseDynamicsNoInertia, computeJointTorques"]}
{"id": "C12", "title": "Inverse dynamics balances power", "statement": "For every virtual generalized velocity beta, the sum over joints of torque_i . beta_i equals the sum over bodies of (I_i a_i + v_i x* I_i v_i - f_ext_i) . (body velocity produced by beta): Newton-Euler equations projected on the joints, with a_i including gravity.", "quantifier": "every tree topology (any number of bodies, any depth, any joint-type mix), every geometry, every configuration and every beta", "why_tests_cant": "Unit tests fix a handful of robots and random configurations; the claim is an identity over unboundedly many topologies and a continuum of values.", "anchors": ["src/RBDyn/ID.cpp:InverseDynamics::inverseDynamics"]}
{"id": "C13", "title": "IDIM regressor reproduces the torques", "statement": "With bodyVelB and bodyAccB as left by inverse dynamics and no external wrench, Y()*multiBodyToInertialVector(mb) equals the stacked inverse dynamics torque; Y depends on kinematics only.", "quantifier": "every tree topology (any number of bodies, any depth, any joint-type mix), every geometry, every configuration", "why_tests_cant": "Unit tests fix a handful of robots and random configurations; the claim is an identity over unboundedly many topologies and a continuum of values.", "anchors": ["src/RBDyn/IDIM.cpp:IDIM::computeY, multiBodyToInertialVector, IMPhi"]}
{"id": "C14", "title": "Inertial parameter vectors round trip", "statement": "IMPhi(v)*inertiaToVector(I) = I*v for every motion vector and inertia; vectorToInertia and inertiaToVector are mutually inverse; sVectorToInertia throws std::out_of_range exactly when the vector does not have 10 rows and otherwise agrees with vectorToInertia.", "quantifier": "every motion vector, inertia and vector", "why_tests_cant": "Unit tests fix a handful of robots and random configurations; the claim is an identity over unboundedly many topologies and a continuum of values.", "anchors": ["src/RBDyn/IDIM.cpp:IMPhi, inertiaToVector, vectorToInertia, sVectorToInertia"]}
{"id": "C15", "title": "Coriolis matrix times velocity is the velocity-dependent bias", "statement": "Coriolis::coriolis(mb, mbc)*alpha equals the vector ForwardDynamics::computeC gives with zero gravity and no external wrench.", "quantifier": "every tree topology (any number of bodies, any depth, any joint-type mix), every geometry, every configuration and every alpha", "why_tests_cant": "Unit tests fix a handful of robots and random configurations; the claim is an identity over unboundedly many topologies and a continuum of values.", "anchors": ["src/RBDyn/Coriolis.cpp:Coriolis::coriolis", "src/RBDyn/FD.cpp:ForwardDynamics::computeC"]}
{"id": "C16", "title": "Inverse statics is inverse dynamics at rest", "statement": "InverseStatics::inverseStatics gives the same jointTorque as InverseDynamics::inverseDynamics run with alpha = 0 and alphaD = 0 (same forces, gravity, configuration).", "quantifier": "every tree topology (any number of bodies, any depth, any joint-type mix), every geometry, every configuration, every external wrench and gravity", "why_tests_cant": "Unit tests fix a handful of robots and random configurations; the claim is an identity over unboundedly many topologies and a continuum of values.", "anchors": ["src/RBDyn/IS.cpp:InverseStatics::inverseStatics", "src/RBDyn/ID.cpp:InverseDynamics::inverseDynamics"]}
{"id": "C17", "title": "Jacobian times velocity is body point velocity", "statement": "For every body and every point attached to it, Jacobian::jacobian(mb,mbc)*(alpha restricted to the path) equals Jacobian::velocity(mb,mbc), and both equal the velocity of that point computed from bodyVelB, with world axes; bodyJacobian and bodyVelocity satisfy the same in body axes.", "quantifier": "every tree topology (any number of bodies, any depth, any joint-type mix), every geometry, every configuration, every body, point, alpha", "why_tests_cant": "Unit tests fix a handful of robots and random configurations; the claim is an identity over unboundedly many topologies and a continuum of values.", "anchors": ["src/RBDyn/Jacobian.cpp:Jacobian::jacobian, bodyJacobian, velocity, bodyVelocity"]}
{"id": "C18", "title": "Jacobian path is exactly the joints that move the body", "statement": "A Jacobian built for a body holds the joints from the root to that body, in order, each once; dof() is the sum of their dofs; a joint not on the path does not influence the body's pose or velocity.", "quantifier": "every tree and every body", "why_tests_cant": "Quantifies over every tree; tests check two or three chains.", "anchors": ["src/RBDyn/Jacobian.cpp:Jacobian::Jacobian"]}
{"id": "C19", "title": "Jacobian derivative accounts for the normal acceleration", "statement": "jacobianDot*alpha = normalAcceleration, and the acceleration of the body point computed from bodyAccB (without gravity) equals jacobian*alphaD + normalAcceleration, for world and body versions.", "quantifier": "every tree topology (any number of bodies, any depth, any joint-type mix), every geometry, every configuration, every body, point, alpha, alphaD", "why_tests_cant": "Unit tests fix a handful of robots and random configurations; the claim is an identity over unboundedly many topologies and a continuum of values.", "anchors": ["src/RBDyn/Jacobian.cpp:jacobianDot, bodyJacobianDot, normalAcceleration, bodyNormalAcceleration"]}
{"id": "C20", "title": "Full Jacobian is the Jacobian with zero columns elsewhere", "statement": "fullJacobian(mb, jac, res) copies each path joint's columns to the columns of that joint in the generalized velocity and leaves zeros elsewhere, so res*alpha_full = jac*alpha_path; addFullJacobian with compactPath blocks gives the same result as the per-joint version.", "quantifier": "every tree, body, matrix", "why_tests_cant": "Unit tests fix a handful of robots and random configurations; the claim is an identity over unboundedly many topologies and a continuum of values.", "anchors": ["src/RBDyn/Jacobian.cpp:fullJacobian, addFullJacobian, compactPath"]}
{"id": "C21", "title": "Expanding a Jacobian product agrees with the full product", "statement": "expand(mb, J^T J) and expandAdd (per joint or compact) place the path-square matrix so that for all full vectors x,y: x^T expand(M) y = x_path^T M y_path, and compact and non-compact versions agree.", "quantifier": "every tree, path and square matrix", "why_tests_cant": "Unit tests fix a handful of robots and random configurations; the claim is an identity over unboundedly many topologies and a continuum of values.", "anchors": ["src/RBDyn/Jacobian.cpp:expand, expandAdd, compactPath"]}
{"id": "C22", "title": "Translating a Jacobian moves its reference point", "statement": "translateJacobian(jac, mbc, point) equals the Jacobian computed for the other point of the same body.", "quantifier": "every tree topology (any number of bodies, any depth, any joint-type mix), every geometry, every configuration, every body and pair of points", "why_tests_cant": "Unit tests fix a handful of robots and random configurations; the claim is an identity over unboundedly many topologies and a continuum of values.", "anchors": ["src/RBDyn/Jacobian.cpp:translateJacobian"]}
{"id": "C23", "title": "Relative Jacobian gives the relative velocity", "statement": "A Jacobian built with a reference body gives, multiplied by alpha, the velocity of the body relative to the reference body, including when the common ancestor is the root, when one body is an ancestor of the other, and when both are the same body.", "quantifier": "every tree and every pair of bodies", "why_tests_cant": "Depends on where the two paths join; tests use fixed-base robots where the defect is invisible.", "anchors": ["src/RBDyn/Jacobian.cpp:Jacobian::Jacobian(mb, bodyName, refBodyName, point)"]}
{"id": "C24", "title": "CoM is the mass-weighted mean", "statement": "computeCoM is the mass-weighted mean of the bodies' CoM world positions (when the total mass is non zero), and computeCoMVelocity / computeCoMAcceleration are the mass-weighted means of the bodies' CoM velocities / accelerations.", "quantifier": "every tree topology (any number of bodies, any depth, any joint-type mix), every geometry, every configuration", "why_tests_cant": "Unit tests fix a handful of robots and random configurations; the claim is an identity over unboundedly many topologies and a continuum of values.", "anchors": ["src/RBDyn/CoM.cpp:computeCoM, computeCoMVelocity, computeCoMAcceleration"]}
{"id": "C25", "title": "CoM Jacobian maps velocity to CoM velocity", "statement": "CoMJacobian::jacobian(mb,mbc)*alpha = CoMJacobian::velocity(mb,mbc), which with unit weights equals computeCoMVelocity, provided every massless body has zero first moment.", "quantifier": "every tree topology (any number of bodies, any depth, any joint-type mix), every geometry, every configuration and every alpha", "why_tests_cant": "Unit tests fix a handful of robots and random configurations; the claim is an identity over unboundedly many topologies and a continuum of values.", "anchors": ["src/RBDyn/CoM.cpp:CoMJacobian::jacobian, CoMJacobian::velocity"]}
{"id": "C26", "title": "The two CoM Jacobian algorithms agree", "statement": "CoMJacobian and CoMJacobianDummy compute the same matrix for the same weights.", "quantifier": "every tree topology (any number of bodies, any depth, any joint-type mix), every geometry, every configuration and every weight vector", "why_tests_cant": "Unit tests fix a handful of robots and random configurations; the claim is an identity over unboundedly many topologies and a continuum of values.", "anchors": ["src/RBDyn/CoM.cpp:CoMJacobian::jacobian, CoMJacobianDummy::jacobian"]}
{"id": "C27", "title": "CoM acceleration splits into Jacobian and normal parts", "statement": "jacobianDot*alpha = normalAcceleration and, with unit weights, computeCoMAcceleration = jacobian*alphaD + normalAcceleration.", "quantifier": "every tree topology (any number of bodies, any depth, any joint-type mix), every geometry, every configuration, every alpha, alphaD", "why_tests_cant": "Unit tests fix a handful of robots and random configurations; the claim is an identity over unboundedly many topologies and a continuum of values.", "anchors": ["src/RBDyn/CoM.cpp:CoMJacobian::normalAcceleration, jacobianDot, computeCoMAcceleration"]}
{"id": "C28", "title": "Each joint's sub-body list is its set of descendants", "statement": "The bodies a joint moves, as used by CoMJacobian, are exactly the bodies having that joint on their path to the root, each once.", "quantifier": "every tree and joint", "why_tests_cant": "Unit tests fix a handful of robots and random configurations; the claim is an identity over unboundedly many topologies and a continuum of values.", "anchors": ["src/RBDyn/CoM.cpp:jointBodiesSuccessors"]}
{"id": "C29", "title": "Safe weight setter rejects wrong sizes", "statement": "CoMJacobian::sWeight(mb, w) throws std::domain_error whenever w does not have one weight per body, and never reads outside w.", "quantifier": "every weight vector length", "why_tests_cant": "The failing lengths have to be guessed; an out-of-bounds read need not fail a test.", "anchors": ["src/RBDyn/CoM.cpp:CoMJacobian::sWeight"]}
{"id": "C30", "title": "Centroidal momentum matrix maps velocity to momentum", "statement": "CentroidalMomentumMatrix::matrix()*alpha = momentum(mb,mbc,com), which with unit weights equals computeCentroidalMomentum; the linear part is total mass times CoM velocity.", "quantifier": "every tree topology (any number of bodies, any depth, any joint-type mix), every geometry, every configuration, every alpha, reference point and weights", "why_tests_cant": "Unit tests fix a handful of robots and random configurations; the claim is an identity over unboundedly many topologies and a continuum of values.", "anchors": ["src/RBDyn/Momentum.cpp:computeMatrix, momentum, computeCentroidalMomentum"]}
{"id": "C31", "title": "Centroidal momentum derivative splits", "statement": "matrixDot()*alpha = normalMomentumDot, and with unit weights computeCentroidalMomentumDot = matrix()*alphaD + normalMomentumDot.", "quantifier": "every tree topology (any number of bodies, any depth, any joint-type mix), every geometry, every configuration, every alpha, alphaD, com, comDot", "why_tests_cant": "Unit tests fix a handful of robots and random configurations; the claim is an identity over unboundedly many topologies and a continuum of values.", "anchors": ["src/RBDyn/Momentum.cpp:computeMatrixDot, normalMomentumDot, computeCentroidalMomentumDot"]}
{"id": "C32", "title": "Reversing a joint inverts its pose", "statement": "For each joint type with unit axis (and unit quaternion), pose(q) of the reversed joint is the inverse transform of pose(q) of the forward joint, and motion() of the reversed joint is the negated transported velocity expressed in its own son frame; reversing twice restores the joint.", "quantifier": "every joint type, axis, parameter vector", "why_tests_cant": "Unit tests fix a handful of robots and random configurations; the claim is an identity over unboundedly many topologies and a continuum of values.", "anchors": ["src/RBDyn/RBDyn/Joint.h:Joint::pose, Joint::motion, Joint::forward"]}
{"id": "C33", "title": "Joint parameter and dof counts, zero configuration", "statement": "params()/dof() of each joint are the sizes zeroParam()/zeroDof() return and the number of motion-subspace columns; for a non-mimic joint pose(zeroParam()) is the identity; ZeroParam(type) equals zeroParam() of a non-mimic joint.", "quantifier": "every joint type, axis, direction, name", "why_tests_cant": "Covers every axis and mimic setting.", "anchors": ["src/RBDyn/RBDyn/Joint.h:zeroParam, zeroDof, ZeroParam, ZeroDof, constructJoint"]}
{"id": "C34", "title": "A mimic joint's zero configuration is a valid configuration", "statement": "For every joint turned into a mimic joint, zeroParam() is a valid configuration (in particular its quaternion is a unit quaternion).", "quantifier": "every joint type and mimic offset", "why_tests_cant": "Only joints with four-parameter quaternions and non-zero offset expose it.", "anchors": ["src/RBDyn/RBDyn/Joint.h:zeroParam, makeMimic"]}
{"id": "C35", "title": "Safe joint functions reject wrong sizes and otherwise agree", "statement": "sPose/sMotion/sTanAccel throw std::domain_error exactly when the vector length differs from params()/dof(), and otherwise return what pose/motion/tanAccel return, without any out-of-range read.", "quantifier": "every joint and every vector length", "why_tests_cant": "All lengths and values.", "anchors": ["src/RBDyn/RBDyn/Joint.h:sPose, sMotion, sTanAccel"]}
{"id": "C36", "title": "Joint positions tile the parameter and dof vectors", "statement": "In every MultiBody, joint i owns positions [jointPosInParam(i), +params) and [jointPosInDof(i), +dof); these ranges are disjoint, in order, and cover [0,nrParams()) and [0,nrDof()).", "quantifier": "every list of joints", "why_tests_cant": "Unit tests fix a handful of robots and random configurations; the claim is an identity over unboundedly many topologies and a continuum of values.", "anchors": ["src/RBDyn/MultiBody.cpp:MultiBody::MultiBody"]}
{"id": "C37", "title": "Body and joint names index the right element", "statement": "With pairwise distinct names bodyIndexByName(bodies()[i].name()) = i (same for joints); sBodyIndexByName throws std::out_of_range exactly for names not in the MultiBody; the unsafe version on an absent name is undefined behaviour.", "quantifier": "every MultiBody, every name", "why_tests_cant": "All names including absent ones.", "anchors": ["src/RBDyn/MultiBody.cpp:MultiBody", "src/RBDyn/RBDyn/MultiBody.h:bodyIndexByName, sBodyIndexByName"]}
{"id": "C38", "title": "Vector and per-joint parameters round trip", "statement": "paramToVector(mb, q) concatenates the per-joint vectors in joint order; vectorToParam(paramToVector(q)) = q for every q with matching sizes and paramToVector(vectorToParam(v)) = v for every v of matching length; the s versions throw std::out_of_range/domain_error exactly on size mismatch and leave the output untouched.", "quantifier": "every joint list and every vector", "why_tests_cant": "Unit tests fix a handful of robots and random configurations; the claim is an identity over unboundedly many topologies and a continuum of values.", "anchors": ["src/RBDyn/MultiBodyConfig.cpp:paramToVector, vectorToParam, sParamToVector, sVectorToParam"]}
{"id": "C39", "title": "A fresh configuration matches its multibody", "statement": "MultiBodyConfig(mb) has every per-body and per-joint vector sized for mb, so all checkMatch* checks pass; zero(mb) gives each joint its zero parameters, zero velocity, acceleration and torque, zero external forces.", "quantifier": "every MultiBody", "why_tests_cant": "Unit tests fix a handful of robots and random configurations; the claim is an identity over unboundedly many topologies and a continuum of values.", "anchors": ["src/RBDyn/MultiBodyConfig.cpp:MultiBodyConfig::MultiBodyConfig, zero, checkMatch*"]}
{"id": "C40", "title": "Config converter maps by name", "statement": "ConfigConverter(from,to).convert copies, for every joint of from but the first, q, alpha and alphaD to the same-named joint of to, and the force of every body to the same-named body, and changes nothing else; converting forth and back restores every force and the values of the joints that are first in neither multibody.", "quantifier": "every pair of multibodies over the same names, every configuration", "why_tests_cant": "Unit tests fix a handful of robots and random configurations; the claim is an identity over unboundedly many topologies and a continuum of values.", "anchors": ["src/RBDyn/MultiBodyConfig.cpp:ConfigConverter"]}
{"id": "C41", "title": "Safe functions throw instead of reading out of range", "statement": "Each algorithm's safe version (sForwardKinematics, sForwardVelocity, sForwardAcceleration, sInverseDynamics, sComputeH, ...) on a well-formed mb and arbitrary mbc either throws std::domain_error leaving mbc unchanged, or runs without any out-of-range access.", "quantifier": "every mismatch between mb and mbc", "why_tests_cant": "Every combination of wrong sizes; an out-of-range write may stay silent.", "anchors": ["src/RBDyn/FK.cpp:sForwardKinematics", "src/RBDyn/FV.cpp:sForwardVelocity", "src/RBDyn/FA.cpp:sForwardAcceleration", "src/RBDyn/ID.cpp:sInverseDynamics", "src/RBDyn/FD.cpp:sComputeH"]}
{"id": "C42", "title": "Graph body and joint names stay unique over every history", "statement": "After any sequence of addBody, addJoint, linkBodies, removeJoint(s), mergeSubBodies, copies and clears, no two bodies and no two joints of the graph have the same name, and nodeByName/jointByName return the element with that name; duplicates are rejected with std::domain_error.", "quantifier": "every history of graph operations", "why_tests_cant": "Unbounded histories.", "anchors": ["src/RBDyn/MultiBodyGraph.cpp:addBody, addJoint, linkBodies, removeJoint"]}
{"id": "C43", "title": "Failed graph operations leave the graph unchanged", "statement": "addBody, addJoint, linkBodies, mergeSubBodies, removeJoint that throw (unknown or duplicate name, missing or mis-sized joint position) leave the graph as it was.", "quantifier": "every graph, every failing argument", "why_tests_cant": "Every point where the exception may be thrown.", "anchors": ["src/RBDyn/MultiBodyGraph.cpp:addBody, addJoint, linkBodies, mergeSubBodies, mergeInertia"]}
{"id": "C44", "title": "makeMultiBody yields a well-formed tree", "statement": "makeMultiBody from any body of a cycle-free graph returns a MultiBody whose body 0 is the root body, where every other body's parent has a smaller index, joint i connects parent(i) to body i, and each body connected to the root appears exactly once.", "quantifier": "every cycle-free graph, every root", "why_tests_cant": "Every acyclic graph and root.", "anchors": ["src/RBDyn/MultiBodyGraph.cpp:makeMultiBody"]}
{"id": "C45", "title": "makeMultiBody terminates exactly on cycle-free graphs", "statement": "makeMultiBody terminates on every cycle-free graph; on a graph in which the root reaches a cycle it does not return (unbounded recursion).", "quantifier": "every graph", "why_tests_cant": "Non-termination cannot be observed by a test.", "anchors": ["src/RBDyn/MultiBodyGraph.cpp:makeMultiBody"]}
{"id": "C46", "title": "Relative poses do not depend on the chosen root", "statement": "For any two roots and the same joint positions, the multibodies made from the same graph give the same relative pose between any two bodies (up to the documented base transforms of bodiesBaseTransform).", "quantifier": "every cycle-free graph, pair of roots, joint positions", "why_tests_cant": "Unit tests fix a handful of robots and random configurations; the claim is an identity over unboundedly many topologies and a continuum of values.", "anchors": ["src/RBDyn/MultiBodyGraph.cpp:makeMultiBody, bodiesBaseTransform"]}
{"id": "C47", "title": "Total mass is independent of the root and preserved by merging", "statement": "The total mass of makeMultiBody's result is the sum of the graph's connected body masses whatever the root; mergeSubBodies preserves it and the merged inertia is the sum of the rigidly attached inertias expressed in the remaining body.", "quantifier": "every cycle-free graph, root and joint configuration", "why_tests_cant": "Unit tests fix a handful of robots and random configurations; the claim is an identity over unboundedly many topologies and a continuum of values.", "anchors": ["src/RBDyn/MultiBodyGraph.cpp:makeMultiBody, mergeSubBodies"]}
{"id": "C48", "title": "removeJoint removes exactly the joint and what lies behind it", "statement": "removeJoint(root, j) removes joint j and all bodies and joints on its far side from root, keeps every other body, joint and link, and does nothing if no joint has that name; removeJoints is the successive application.", "quantifier": "every cycle-free graph, root and joint", "why_tests_cant": "Unit tests fix a handful of robots and random configurations; the claim is an identity over unboundedly many topologies and a continuum of values.", "anchors": ["src/RBDyn/MultiBodyGraph.cpp:removeJoint, removeJoints, rmArc, rmArcFromMbg, rmNodeFromMbg"]}
{"id": "C49", "title": "Graph copies are independent", "statement": "A copied or assigned graph produces the same multibodies as the original, and later operations on either do not affect the other; self assignment keeps the graph.", "quantifier": "every graph and every later history on both copies", "why_tests_cant": "Sharing through pointers only shows in particular later histories.", "anchors": ["src/RBDyn/MultiBodyGraph.cpp:MultiBodyGraph(const MultiBodyGraph&), operator=, copy"]}
{"id": "C50", "title": "fixJoints fixes what it says", "statement": "fixJoints(g, names) returns a copy in which exactly the named joints are fixed, in makeMultiBody and in jointByName; with fixAllJoints all joints are fixed whatever the list; the result accepts further operations.", "quantifier": "every graph and list", "why_tests_cant": "Depends on which lookup is used afterwards.", "anchors": ["src/RBDyn/MultiBodyGraph.cpp:fixJoints"]}
{"id": "C51", "title": "Predecessor and successor joint maps describe the tree", "statement": "predecessorJoint(root) maps each body to the joint through which makeMultiBody(root) reaches it; successorJoints(root) maps each body to the joints leaving it away from the root, in arc order; together they are inverse relations.", "quantifier": "every cycle-free graph and root", "why_tests_cant": "Unit tests fix a handful of robots and random configurations; the claim is an identity over unboundedly many topologies and a continuum of values.", "anchors": ["src/RBDyn/MultiBodyGraph.cpp:predecessorJoint, successorJoints"]}
{"id": "C52", "title": "Integration is exact for one-dof joints and updates velocity linearly", "statement": "integration(mb,mbc,step) sets alpha to alpha + alphaD*step for every joint and q to q + alpha*step + alphaD*step^2/2 for Rev/Prism/Cylindrical joints, with the velocity used before the update; step 0 changes nothing for those joints.", "quantifier": "every robot, state and step", "why_tests_cant": "Unit tests fix a handful of robots and random configurations; the claim is an identity over unboundedly many topologies and a continuum of values.", "anchors": ["src/RBDyn/NumericalIntegration.cpp:integration, jointIntegration"]}
{"id": "C53", "title": "Orientation integration keeps unit quaternions", "statement": "SO3Integration and the spherical/free joint integration return a unit quaternion for every unit input, any velocity, acceleration and step, so repeated integration never leaves the rotation group.", "quantifier": "every state, every number of steps", "why_tests_cant": "Unbounded number of steps.", "anchors": ["src/RBDyn/NumericalIntegration.cpp:SO3Integration, jointIntegration"]}
{"id": "C54", "title": "Inverse kinematics is bounded and its flag is meaningful", "statement": "inverseKinematics stops after at most max_iterations_ iterations, and returns true exactly when in its last iteration the residual norm computed for the pose reached was below the threshold.", "quantifier": "every robot, target and start", "why_tests_cant": "Every iteration count.", "anchors": ["src/RBDyn/IK.cpp:InverseKinematics::inverseKinematics"]}
{"id": "C55", "title": "Inverse kinematics handles every joint type", "statement": "inverseKinematics applied to a body whose path contains spherical or free joints updates configurations without out-of-range access and with one update per dof.", "quantifier": "every joint mix on the path", "why_tests_cant": "Needs particular joint mixes; the out-of-range read may stay silent.", "anchors": ["src/RBDyn/IK.cpp:InverseKinematics::inverseKinematics"]}
{"id": "C56", "title": "ZMP lies on the given altitude and balances the horizontal moment", "statement": "With gravity along the vertical axis, computeCentroidalZMP returns the only point at the requested altitude about which gravity plus inertial force at the CoM has no horizontal moment, whenever the vertical force is non zero; NoGravity on comA+g agrees with it.", "quantifier": "every CoM, acceleration, altitude, and every vertical gravity", "why_tests_cant": "Unit tests fix a handful of robots and random configurations; the claim is an identity over unboundedly many topologies and a continuum of values.", "anchors": ["src/RBDyn/ZMP.cpp:computeCentroidalZMP, computeCentroidalZMPNoGravity, computeCentroidalZMPComplete"]}
{"id": "C57", "title": "Image point interaction matrix maps camera velocity to image velocity", "statement": "imagePointJacobian maps the camera's spatial velocity to the velocity of the normalised image point of a static 3D point, the 3D-point overload agrees with the 2D one, and imagePointJacobianDot is its time derivative along any motion of point and depth.", "quantifier": "every point in front of the camera, every velocity", "why_tests_cant": "Unit tests fix a handful of robots and random configurations; the claim is an identity over unboundedly many topologies and a continuum of values.", "anchors": ["src/RBDyn/VisServo.cpp:imagePointJacobian, imagePointJacobianDot"]}
{"id": "C58", "title": "Angle-axis extraction recovers the rotation", "statement": "getAngleAxis returns the unit axis and angle of any rotation matrix, so poseJacobian built on it is the interaction matrix of the theta-u representation.", "quantifier": "every rotation matrix", "why_tests_cant": "Unit tests fix a handful of robots and random configurations; the claim is an identity over unboundedly many topologies and a continuum of values.", "anchors": ["src/RBDyn/VisServo.cpp:getAngleAxis, poseJacobian"]}
{"id": "C59", "title": "URDF and YAML readers agree on frames, writers round trip", "statement": "A frame written by to_urdf / to_yaml is read back by from_urdf / from_yaml as the same rigid transform, and both formats' rpy denote the same rotation.", "quantifier": "every rotation", "why_tests_cant": "Unit tests fix a handful of robots and random configurations; the claim is an identity over unboundedly many topologies and a continuum of values.", "anchors": ["src/parsers/urdf.cpp:RPY", "src/parsers/yaml.cpp:MatrixFromRPY", "src/parsers/to_urdf.cpp:to_urdf"]}
{"id": "C60", "title": "Body inertia survives a write-read round trip", "statement": "A body inertia written by to_urdf or to_yaml and read back (with transform_inertia on) is the same spatial inertia, for every mass and inertia including point masses at the origin.", "quantifier": "every mass, CoM and inertia matrix", "why_tests_cant": "Unit tests fix a handful of robots and random configurations; the claim is an identity over unboundedly many topologies and a continuum of values.", "anchors": ["src/parsers/to_urdf.cpp:to_urdf", "src/parsers/to_yaml.cpp:to_yaml", "src/parsers/yaml.cpp:parseInertial", "src/parsers/urdf.cpp:parseMultiBodyGraphFromURDF"]}
{"id": "C61", "title": "Angle units apply to angles only", "statement": "With anglesInDegrees, joint limits of revolute joints are converted to radians and limits of prismatic joints (lengths) are left as they are; limits vectors of the wrong size never cause out-of-range accesses.", "quantifier": "every limit specification", "why_tests_cant": "Unit tests fix a handful of robots and random configurations; the claim is an identity over unboundedly many topologies and a continuum of values.", "anchors": ["src/parsers/yaml.cpp:parseJointLimits"]}
{"id": "C62", "title": "Path prefixing is idempotent", "statement": "prefix_path leaves paths starting with package:// or file:// unchanged, prefixes every other path with file://, and applying it twice equals applying it once.", "quantifier": "every string", "why_tests_cant": "All strings.", "anchors": ["src/parsers/common.cpp:prefix_path"]}
{"id": "C63", "title": "Gravity enters as an upward base acceleration", "statement": "Inverse dynamics with gravity vector g equals inverse dynamics with zero gravity when every body carries additionally the acceleration g of the base (equivalently subtracting each body's weight as an external wrench): the torque difference in direction beta is the sum over bodies of m_i g . (velocity of body i's CoM under beta).", "quantifier": "every tree topology (any number of bodies, any depth, any joint-type mix), every geometry, every configuration, every gravity vector", "why_tests_cant": "Unit tests fix a handful of robots and random configurations; the claim is an identity over unboundedly many topologies and a continuum of values.", "anchors": ["src/RBDyn/ID.cpp:InverseDynamics::inverseDynamics", "src/RBDyn/FD.cpp:computeC"]}
{"id": "C64", "title": "Inverse statics torque derivatives", "statement": "computeTorqueJacobianJoint fills jointTorqueDiff with the derivative of the inverse statics torque with respect to the configuration when external forces are constant or vary with the given Jacobians.", "quantifier": "every tree and configuration", "why_tests_cant": "A derivative at every configuration.", "anchors": ["src/RBDyn/IS.cpp:computeTorqueJacobianJoint"]}
{"id": "C65", "title": "Body accelerations are the time derivatives of body velocities", "statement": "Along a trajectory whose joints move with velocity alpha and where alpha has time derivative alphaD, forwardAcceleration with base acceleration A0 leaves in bodyAccB of each body the time derivative of its bodyVelB plus A0 expressed in the body frame.", "quantifier": "every tree, every differentiable trajectory, every time, every base acceleration", "why_tests_cant": "A limit over all step sizes along every trajectory; finite differences only approximate it.", "anchors": ["src/RBDyn/FA.cpp:forwardAcceleration", "src/RBDyn/FV.cpp:forwardVelocity"]}
{"id": "C66", "title": "Vector Jacobian gives the velocity of a vector fixed in a body", "statement": "vectorJacobian(mb, mbc, v)*alpha has as linear rows the time derivative of the body-fixed vector v written with world axes, i.e. omega x (R v); vectorBodyJacobian the same with body axes; the angular rows of the stored matrix are left alone.", "quantifier": "every tree topology, geometry, configuration, body, vector and alpha", "why_tests_cant": "Unit tests fix a handful of robots and random configurations; the claim is an identity over unboundedly many topologies and a continuum of values.", "anchors": ["src/RBDyn/Jacobian.cpp:vectorJacobian, vectorBodyJacobian"]}
{"id": "C67", "title": "ZMP with an external wrench", "statement": "computeCentroidalZMPComplete returns a point at the requested altitude about which mass*comA minus the external force at the CoM, minus the external couple, has no horizontal moment; without wrench it agrees with computeCentroidalZMPNoGravity.", "quantifier": "every CoM, acceleration, altitude, wrench and mass for which the denominators are not zero", "why_tests_cant": "Tests evaluate a few literals; the claim is an identity over a continuum, and it fails only when altitude and wrench, or vertical acceleration and wrench, are both non trivial.", "anchors": ["src/RBDyn/ZMP.cpp:computeCentroidalZMPComplete"]}
{"id": "C68", "title": "The Coriolis matrix is the passive one", "statement": "Along a differentiable motion whose alpha is the joint rate, each entry of the mass matrix given by ForwardDynamics::computeH is differentiable in time and its derivative is the corresponding entry of C plus that of the transpose of C, where C is the matrix returned by Coriolis::coriolis. (So dH/dt - 2C is skew-symmetric, the property passivity-based controllers rely on.)", "quantifier": "every tree topology, every mix of joint types whose alpha is the rate of the joint, every trajectory and instant", "why_tests_cant": "A test compares finite differences at a few configurations of a fixed robot; the claim is an identity of derivatives over all robots and trajectories.", "anchors": ["src/RBDyn/Coriolis.cpp:Coriolis::coriolis", "src/RBDyn/FD.cpp:ForwardDynamics::computeH"]}
{"id": "C69", "title": "Careful use of graphs never goes wrong", "statement": "Start with no graph and make any sequence of calls (constructor, addBody, addJoint, linkBodies, removeJoint(s), mergeSubBodies, clear, copy, assignment, fixJoints with a list) in which each link uses a joint that is not on a link yet and joins two bodies that are not connected yet, joints come from the constructors, and removals and merges start from a body with no link named like the root joint; exceptions are caught. Then no call is undefined or fails to return, and after the sequence every graph is consistent: lookup tables match the bodies and joints, each link is seen from both ends with opposite directions, no joint is on two links and there is no cycle.", "quantifier": "every such sequence of calls of any length, on any number of graphs, with any names, transforms and inertias", "why_tests_cant": "Consistency must be an invariant of unbounded histories in which graphs share memory through copies; tests run a few short sequences.", "anchors": ["src/RBDyn/MultiBodyGraph.cpp:MultiBodyGraph", "src/RBDyn/RBDyn/MultiBodyGraph.h:MultiBodyGraph"]}
{"id": "C70", "title": "Integration of steady motion is exact", "statement": "When no joint turns its own direction of motion (spherical and free joints with acceleration parallel to the angular velocity, free and planar joints that either do not turn or do not translate, and any revolute, prismatic, cylindrical or fixed joint), the q returned by integration with step t, seen as a function of t of any sign, is the exact solution of the kinematic law of the joint for the velocity alpha + t alphaD, quaternions included.", "quantifier": "every robot, every such state, every step", "why_tests_cant": "Tests compare with a numerical integration at a few steps; the claim is a differential equation over a continuum of steps and states.", "anchors": ["src/RBDyn/NumericalIntegration.cpp:integration, jointIntegration, SO3Integration, magnusExpansion"]}
{"id": "C71", "title": "Inverse kinematics does not move a robot that is on the target", "statement": "When the body already has the target pose, inverseKinematics returns true after one iteration, with every joint parameter and body pose as forward kinematics gives them for the original configuration.", "quantifier": "every robot without spherical or free joints on the path, every configuration, any least-squares solver that maps 0 to 0", "why_tests_cant": "Every robot and configuration; a test fixes a few.", "anchors": ["src/RBDyn/IK.cpp:InverseKinematics::inverseKinematics"]}
{"id": "C72", "title": "Depth interaction matrix", "statement": "depthDotJacobian maps the camera's spatial velocity, in the same layout as imagePointJacobian (angular part first), to the derivative of the depth of a static point.", "quantifier": "every point in front of the camera, every camera motion", "why_tests_cant": "An identity over a continuum of points and velocities; the library's test never multiplies the row by a velocity.", "anchors": ["src/RBDyn/VisServo.cpp:depthDotJacobian"]}
{"id": "C73", "title": "The reader is chosen by the extension", "statement": "from_file reads as YAML a path whose text after the last dot is yaml or yml, as URDF one whose text after the last dot is urdf, and throws std::runtime_error for every other path.", "quantifier": "every path", "why_tests_cant": "All strings, including those with dots in directory names, several dots, or none.", "anchors": ["src/parsers/common.cpp:from_file"]}
{"id": "C74", "title": "Joints survive a write-read round trip", "statement": "A revolute, prismatic, free or fixed joint written by to_urdf is read back by from_urdf with the same type, motion subspace, name and mimic relation.", "quantifier": "every robot, every joint of it, every unit axis, mimic multiplier and offset", "why_tests_cant": "Unit tests fix a handful of robots; the claim is about a continuum of axes and multipliers.", "anchors": ["src/parsers/to_urdf.cpp:to_urdf", "src/parsers/urdf.cpp:parseMultiBodyGraphFromURDF"]}
{"id": "C75", "title": "A tree document is read as that tree", "statement": "from_urdf and from_yaml, given a document whose links and joints have distinct names and form a tree rooted at the first link, succeed and return a multibody with exactly the bodies of the document, whose root is the first link and in which every other body hangs below the link named as the parent of its joint, through that joint and with the frame and limits written there, whatever the order of the elements.", "quantifier": "every document, every number and order of links and joints, every tree shape, default names included", "why_tests_cant": "Tests read a few robots whose elements are written in one order; the claim ranges over all trees and all orders of their elements.", "anchors": ["src/parsers/urdf.cpp:from_urdf", "src/parsers/yaml.cpp:from_yaml", "src/parsers/yaml.cpp:RBDynFromYAML::parseJoint"]}
{"id": "C76", "title": "A robot survives being written and read back", "statement": "A robot read from a document, written by to_yaml or to_urdf and read again, is the same robot: same bodies, joints, parents, frames, configuration, name and joint limits.", "quantifier": "every robot the readers can return and the format can describe", "why_tests_cant": "Tests compare two fixed robots; the claim is about every tree, inertia, frame and limit.", "anchors": ["src/parsers/to_urdf.cpp:to_urdf", "src/parsers/to_yaml.cpp:to_yaml", "src/parsers/urdf.cpp:from_urdf", "src/parsers/yaml.cpp:from_yaml"]}
{"id": "C77", "title": "subMultiBody extracts the chain of the path", "statement": "Jacobian::subMultiBody returns a multibody that is a chain made of the bodies of the Jacobian's path, one degree-of-freedom block per joint of the path. For a Jacobian without reference body, forward kinematics, forward velocity and the Jacobian of the last body computed on the chain, with the positions and speeds of the robot along the path, equal those of the robot. For a Jacobian with a reference body, the poses in the chain are the poses relative to the reference.", "quantifier": "every robot, every body and reference body, every configuration and velocity", "why_tests_cant": "Tests compare chains for a few bodies of one robot whose joint placements are all translations, for which the order of composition does not matter.", "anchors": ["src/RBDyn/Jacobian.cpp:Jacobian::subMultiBody", "src/RBDyn/RBDyn/Jacobian.h:subMultiBody"]}
{"id": "C78", "title": "The safe Jacobian functions reject exactly what does not match", "statement": "Each safe function of Jacobian (sJacobian, sBodyJacobian, sVectorJacobian, sJacobianDot, sVelocity, sNormalAcceleration, sTranslateJacobian, sFullJacobian, sSubMultiBody and their variants) throws std::domain_error when the configuration, the matrices or the path do not match the multibody, and otherwise returns what the version without checks returns. No call is undefined behaviour.", "quantifier": "every robot, Jacobian object, configuration of any sizes, and history of calls on one object", "why_tests_cant": "Tests try a few vectors with one element missing; the claim is about every combination of sizes of thirteen vectors and two matrices, and every object.", "anchors": ["src/RBDyn/Jacobian.cpp:sJacobian", "src/RBDyn/Jacobian.cpp:sNormalAcceleration", "src/RBDyn/Jacobian.cpp:sFullJacobian", "src/RBDyn/RBDyn/Jacobian.h"]}
{"id": "C79", "title": "The safe centre of mass, momentum, statics, identification and conversion functions reject exactly what does not match", "statement": "The safe versions of computeCoM, computeCoMVelocity, computeCoMAcceleration, the CoM Jacobians, the centroidal momentum and its matrix, inverseStatics, IDIM::computeY and ConfigConverter::convert throw std::domain_error when a vector of the configuration does not have the size of the multibody, and otherwise return what the version without checks returns. No call is undefined behaviour.", "quantifier": "every robot, analysis object, configuration of any sizes, and history of calls on one object", "why_tests_cant": "Tests try a few wrong sizes on one robot; reading past a vector may go unnoticed.", "anchors": ["src/RBDyn/CoM.cpp:sComputeCoM", "src/RBDyn/CoM.cpp:CoMJacobian::sNormalAcceleration", "src/RBDyn/Momentum.cpp:sComputeMatrix", "src/RBDyn/IS.cpp:sInverseStatics", "src/RBDyn/IDIM.cpp:sComputeY", "src/RBDyn/MultiBodyConfig.cpp:ConfigConverter::sConvert"]}
{"id": "C80", "title": "Visual and collision elements are read as the document describes them", "statement": "For every URDF or YAML description that is read, the visual (collision) map gives for each link exactly the visual (collision) elements with a geometry of the kept links of that name, in document order, each with its name, its frame, its shape and its material, and links without such elements have no entry. A material is found by name among the shared ones or in the element itself, in the same way in both formats. Reading a malformed element gives an error and never undefined behaviour.", "quantifier": "every document, with any number of materials, links and elements, well formed or not, and every option of the reader", "why_tests_cant": "Tests read a few fixed files, all well formed.", "anchors": ["src/parsers/urdf.cpp:visualFromTag", "src/parsers/urdf.cpp:materialFromTag", "src/parsers/yaml.cpp:RBDynFromYAML::parseVisuals", "src/parsers/yaml.cpp:RBDynFromYAML::parseGeometry", "src/parsers/yaml.cpp:RBDynFromYAML::parseMaterial"]}
{"id": "C81", "title": "Visual and collision elements survive a round trip through either format", "statement": "Writing a parser result with to_urdf or to_yaml and reading it back gives, for every link of the robot, the same visual and collision elements in the same order: same name, frame, shape and material.", "quantifier": "every robot, every map of visual and collision elements, both formats", "why_tests_cant": "Tests write and read a few robots; frames, shapes and file names range over infinitely many values.", "anchors": ["src/parsers/to_urdf.cpp:to_urdf", "src/parsers/to_yaml.cpp:to_yaml", "src/parsers/urdf.cpp:visualFromTag", "src/parsers/yaml.cpp:RBDynFromYAML::parseVisuals"]}
{"id": "C82", "title": "Reading a document is safe whatever it contains", "statement": "from_urdf and from_yaml, given any document and any options, never perform an undefined operation; they return or throw, and whatever they return is a usable robot: parents come before children, all vectors of the configuration have the sizes of the multibody, forward kinematics and velocity have been run on it.", "quantifier": "every URDF and YAML document (any names, repeated or unknown links, any filter options, any limits), any depth of recursion", "why_tests_cant": "Tests read well-formed robots; documents come from users, and the malformed ones are unbounded in number and kind.", "anchors": ["src/parsers/urdf.cpp:parseMultiBodyGraphFromURDF", "src/parsers/urdf.cpp:from_urdf", "src/parsers/yaml.cpp:RBDynFromYAML", "src/parsers/yaml.cpp:RBDynFromYAML::parseJointLimits", "src/RBDyn/MultiBodyGraph.cpp:MultiBodyGraph::makeMultiBody"]}
{"id": "C83", "title": "The converter writes the robot it reads", "statement": "urdf_yaml_converter reads the text given by the standard input or the input file, in the format it is in, and writes to the standard output or the output file a text in the other format that describes the same robot.", "quantifier": "every text, every combination of standard input and arguments, every robot that both formats can describe", "why_tests_cant": "The program has no tests; its behaviour depends on the text, the arguments and what is on the standard input at the moment it starts.", "anchors": ["src/parsers/urdf_yaml_conv.cpp:main", "src/parsers/urdf_yaml_conv.cpp:getContent"]}
{"id": "C84", "title": "The dynamics obey Newton's laws", "statement": "The wrench inverseDynamics finds at a joint, together with the external wrenches and weights of the bodies the joint carries, equals the rate of change of the momentum of those bodies about any fixed point. For a robot on one free joint the momentum rate computed from the accelerations (of the configuration, or those forwardDynamics finds) is the wrench of the free joint plus external wrenches plus weights; torques of inner joints do not move the centre of mass; without outer wrench the momentum is constant along the motion; free fall needs no torque.", "quantifier": "every tree of joints, every configuration, velocity, acceleration, torque, external wrench, gravity and reference point; every differentiable motion", "why_tests_cant": "Tests compare two algorithms of the library at sampled states; a common error of sign or frame cancels in such a comparison, and conservation along a motion is about all instants.", "anchors": ["src/RBDyn/ID.cpp:InverseDynamics::inverseDynamics", "src/RBDyn/FD.cpp:ForwardDynamics::forwardDynamics", "src/RBDyn/Momentum.cpp:computeCentroidalMomentum", "src/RBDyn/Momentum.cpp:computeCentroidalMomentumDot", "src/RBDyn/CoM.cpp:computeCoMAcceleration"]}
{"id": "C85", "title": "Energy balance of the dynamics", "statement": "Along a motion whose accelerations are those forwardDynamics computes, the sum of kinetic and potential energy changes at the rate of the power of the joint torques and external wrenches; when that power is zero the energy is constant.", "quantifier": "every tree of joints (any number of roots), every differentiable motion, torque and external wrench along it", "why_tests_cant": "It is a statement about the derivative at every instant of every motion; simulations in tests have integration error that hides a wrong Coriolis or external force term.", "anchors": ["src/RBDyn/FD.cpp:ForwardDynamics::forwardDynamics", "src/RBDyn/FK.cpp:forwardKinematics", "src/RBDyn/FV.cpp:forwardVelocity"]}
{"id": "C86", "title": "Objects can be used again", "statement": "What a call on a computation object (Jacobian, InverseDynamics, ForwardDynamics, InverseDynamics identification, CoMJacobian, CoMJacobianDummy, CentroidalMomentumMatrix, Coriolis, InverseStatics, InverseKinematics) returns depends only on the robot and on the arguments of that call: not on the contents of uninitialised memory at construction, and not on the calls made before on the same object, with whatever configurations.", "quantifier": "every robot, every two histories of construction and calls of the same kind of object, every configuration of the last call (valid or not: failures coincide as well)", "why_tests_cant": "Tests use new objects or a few repeated calls; a buffer that is not cleared or a cached size shows only for particular sequences of calls.", "anchors": ["src/RBDyn/Jacobian.cpp:Jacobian", "src/RBDyn/ID.cpp:InverseDynamics", "src/RBDyn/FD.cpp:ForwardDynamics", "src/RBDyn/IDIM.cpp:IDIM", "src/RBDyn/CoM.cpp:CoMJacobian", "src/RBDyn/CoM.cpp:CoMJacobianDummy", "src/RBDyn/Momentum.cpp:CentroidalMomentumMatrix", "src/RBDyn/Coriolis.cpp:Coriolis", "src/RBDyn/IS.cpp:InverseStatics", "src/RBDyn/IK.cpp:InverseKinematics"]}
{"id": "C87", "title": "The choice of the world frame does not matter", "statement": "Building the robot with its base at another pose of the world (or turning and displacing the world frame, gravity and external wrenches accordingly) changes none of the joint torques, accelerations, mass matrix, bias vector, Coriolis matrix and simulated joint motions, and changes poses, velocities, Jacobians, the center of mass and momentum exactly by the change of coordinates. Failures coincide as well.", "quantifier": "every robot, configuration (valid or not), rotation and translation of the world, previous contents of the objects, number of simulation steps", "why_tests_cant": "Tests compare a few poses of the base; a term that uses world coordinates where body coordinates are meant vanishes at the identity pose or for particular axes.", "anchors": ["src/RBDyn/MultiBodyGraph.cpp:MultiBodyGraph::makeMultiBody", "src/RBDyn/FK.cpp:forwardKinematics", "src/RBDyn/FV.cpp:forwardVelocity", "src/RBDyn/FA.cpp:forwardAcceleration", "src/RBDyn/ID.cpp:InverseDynamics", "src/RBDyn/FD.cpp:ForwardDynamics", "src/RBDyn/Jacobian.cpp:Jacobian", "src/RBDyn/CoM.cpp", "src/RBDyn/Momentum.cpp", "src/RBDyn/Coriolis.cpp:Coriolis", "src/RBDyn/NumericalIntegration.cpp:integration"]}
{"id": "C88", "title": "What the mass matrix and the dynamics depend on", "statement": "The mass matrix has zero entries between joints of which neither carries the other, and depends only on the configuration of the joints that have a predecessor: not on the pose of the bases, velocities, torques, forces, gravity, or earlier calls. Without gravity and external forces the bias vector, the inverse dynamics torques and the forward dynamics accelerations do not depend on the pose of the bases either.", "quantifier": "every tree of joints (any number of roots), every two valid configurations that agree except at the roots, every pair of joints on different branches", "why_tests_cant": "Sparsity and independence range over all trees and pairs of configurations; a test checks a handful of robots and poses.", "anchors": ["src/RBDyn/FD.cpp:ForwardDynamics::computeH", "src/RBDyn/FD.cpp:ForwardDynamics::computeC", "src/RBDyn/FD.cpp:ForwardDynamics::forwardDynamics", "src/RBDyn/ID.cpp:InverseDynamics::inverseDynamics"]}
{"id": "C89", "title": "The precision of integration bounds its error", "statement": "The configuration that integration computes with precision prec differs from the true motion of each joint under its velocity and constant joint acceleration by at most prec: same joint angles and orientation, and a position of the body at a distance of at most prec.", "quantifier": "every robot, configuration, velocity, acceleration, step that is not negative, positive precision and true motion of the joint", "why_tests_cant": "Tests integrate a few motions; the number of sub-steps is derived from an estimate of a derivative at the ends of the step, and whether it suffices depends on all of the continuous inputs.", "anchors": ["src/RBDyn/NumericalIntegration.cpp:integration", "src/RBDyn/NumericalIntegration.cpp:jointIntegration", "src/RBDyn/NumericalIntegration.cpp:freeJointIntegration", "src/RBDyn/NumericalIntegration.cpp:planarJointIntegration", "src/RBDyn/NumericalIntegration.cpp:fourthDerivativeSquaredNorm"]}
{"id": "C90", "title": "The inertia that is read is that of the body described", "statement": "With transform_inertia, a link read from URDF or YAML has the mass and centre of mass its inertial element gives, and turning it about the origin of the link takes the kinetic energy of the body described (inertia about the centre of mass, in the rotated frame of the element). Without it the inertia is taken as it is written.", "quantifier": "every inertial element that can be read, any mass, frame and inertia, every angular velocity", "why_tests_cant": "The files used in tests have no rotated inertial frames; direction of rotation and sign of the transport term show for particular values only.", "anchors": ["src/parsers/urdf.cpp:urdf_xml_to_mbg", "src/parsers/urdf.cpp:RPY", "src/parsers/yaml.cpp:parseInertial", "src/parsers/yaml.cpp:MatrixFromRPY"]}
{"id": "C91", "title": "Reading and editing a multibody", "statement": "The checked accessors of MultiBody return what the unchecked ones return and throw std::out_of_range for every index (negative ones included) where those would read outside of the vector. Each setter changes what it names and nothing else; after any sequence of checked edits, with their exceptions caught, the multibody is well-formed, has the same structure and its names designate the right bodies and joints. Bodies (inertias) have no influence on the kinematics. The motion subspaces exchanged with python are those of the configuration.", "quantifier": "every multibody, index, body, transform and sequence of edits", "why_tests_cant": "Indices come as signed ints that are cast, and the tables of names and positions are computed once by the constructor: that they stay right is about every history of edits.", "anchors": ["src/RBDyn/RBDyn/MultiBody.h:sBody", "src/RBDyn/RBDyn/MultiBody.h:sBodies", "src/RBDyn/RBDyn/MultiBody.h:sTransform", "src/RBDyn/RBDyn/MultiBody.h:sTransforms", "src/RBDyn/MultiBodyConfig.cpp:python_motionSubspace"]}
{"id": "C92", "title": "Joint data follow their joints", "statement": "ConfigConverter::convertJoint copies the entry of every joint of from but the first to the joint of to with the same name and leaves the other entries alone (default values in the version that returns a new vector); sConvertJoint does the same or throws std::domain_error, and neither reads or writes outside of the vectors.", "quantifier": "every pair of multibodies with distinct names and every pair of vectors of any type", "why_tests_cant": "Tests convert between two versions of one robot; whether the right entries move depends on the names and numbers of joints of both multibodies.", "anchors": ["src/RBDyn/RBDyn/MultiBodyConfig.h:convertJoint", "src/RBDyn/RBDyn/MultiBodyConfig.h:sConvertJoint"]}
{"id": "C93", "title": "Filtered links are read like the document without them", "statement": "Reading a URDF or YAML document with filtered or virtual links gives the same outcome as reading, without filter, the document in which the links to remove are deleted with the joints that touch them and the joints of the filtered links that stay are fixed. When the document describes a tree whose first link stays, it is read, and the robot has exactly the links that are still reached from the first one, with the joints and bodies their elements describe.", "quantifier": "every document whose links and joints give their names, of any size and order, and every set of filtered links and parameters", "why_tests_cant": "Tests filter one link of one document; which joints go and what remains reachable depends on the shape of the tree and on the order of the elements.", "anchors": ["src/parsers/urdf.cpp:handle_link", "src/parsers/urdf.cpp:removed_links", "src/parsers/yaml.cpp:parseLink", "src/parsers/yaml.cpp:parseJoint"]}
{"id": "C94", "title": "The base link only chooses the root", "statement": "Reading a URDF or YAML document with another of its links as base link gives the same name, limits, graph, bodies and joints as reading it with the first link as base; the chosen link comes first, the root joint is the same, and at the same joint positions any two links have the same relative pose, once the frames of the links are brought back with bodiesBaseTransform. A base link the document does not have is rejected with std::out_of_range.", "quantifier": "every document that describes a tree, of any size and order, every link of it and every configuration", "why_tests_cant": "Tests read one document with one base; joints between the two bases are reversed and frames are moved depending on the shape of the tree.", "anchors": ["src/parsers/urdf.cpp:baseLink", "src/parsers/yaml.cpp:base_link_", "src/RBDyn/MultiBodyGraph.cpp:makeMultiBody", "src/RBDyn/MultiBodyGraph.cpp:bodiesBaseTransform"]}
{"id": "C95", "title": "Fixing joints is holding them at zero", "statement": "A robot whose joints in some set are held still at their zero position has the same body poses, velocities, accelerations, centre of mass with its velocity and acceleration, and centroidal momentum with its rate as the robot in which these joints are fixed. inverseDynamics gives the other joints the same torques, and the mass matrix and the bias of the fixed robot are those of the other robot with the rows and columns of the fixed joints left out. fixJoints with a list of names makes such a robot.", "quantifier": "all trees, joint types and directions, sets of joints, positions, velocities and accelerations of the other joints, external forces and gravity; all consistent graphs and lists of joints", "why_tests_cant": "Tests compare a few robots at a few configurations; the claim is about every tree, every set of joints and every configuration.", "anchors": ["src/RBDyn/FK.cpp:forwardKinematics", "src/RBDyn/FV.cpp:forwardVelocity", "src/RBDyn/FA.cpp:forwardAcceleration", "src/RBDyn/ID.cpp:inverseDynamics", "src/RBDyn/FD.cpp:computeH", "src/RBDyn/FD.cpp:computeC", "src/RBDyn/MultiBodyGraph.cpp:fixJoints", "src/RBDyn/CoM.cpp:computeCoMAcceleration", "src/RBDyn/Momentum.cpp:computeCentroidalMomentum, computeCentroidalMomentumDot"]}
{"id": "C96", "title": "Results do not depend on the units of time and mass", "statement": "Writing the same robot and state in other units, with numbers of masses and inertias c times, velocities k times, accelerations and gravity k*k times and forces c*k*k times as large, leaves the body poses and the centre of mass the same, makes body velocities and the velocity of the centre of mass k times, accelerations k*k times, the centroidal momentum c*k times and its rate c*k*k times as large. inverseDynamics gives torques and computeC a bias c*k*k times as large, computeH a mass matrix c times as large, and forwardDynamics with torques in the new unit gives joint accelerations k*k times as large. In particular (k = -1) reversing all joint velocities changes neither the torques of inverseDynamics nor the accelerations of forwardDynamics.", "quantifier": "all trees, joint types, positions, velocities, accelerations, external forces, gravity, inertias (positive definite for forward dynamics), every real k and every positive c", "why_tests_cant": "A term with the wrong power of velocity, or a constant that is not scaled, can vanish at the configurations a test picks; the claim is about all of them and all units.", "anchors": ["src/RBDyn/FK.cpp:forwardKinematics", "src/RBDyn/FV.cpp:forwardVelocity", "src/RBDyn/FA.cpp:forwardAcceleration", "src/RBDyn/ID.cpp:inverseDynamics", "src/RBDyn/FD.cpp:computeH", "src/RBDyn/FD.cpp:computeC", "src/RBDyn/FD.cpp:forwardDynamics", "src/RBDyn/CoM.cpp:computeCoM", "src/RBDyn/CoM.cpp:computeCoMVelocity", "src/RBDyn/CoM.cpp:computeCoMAcceleration", "src/RBDyn/Momentum.cpp:computeCentroidalMomentum", "src/RBDyn/Momentum.cpp:computeCentroidalMomentumDot"]}
{"id": "C97", "title": "Results do not depend on the unit of length", "statement": "Writing the same robot and state in another unit of length, with joint placements, centres of mass, sliding positions, linear velocities and accelerations and gravity L times, inertias and external moments L*L times and forces L times as large, gives the same rotations and angular velocities and accelerations of the bodies, and positions, linear velocities and accelerations L times as large, also those of the centre of mass; the centroidal momentum and its rate change the same way. inverseDynamics and computeC give L*L times as large torques and L times as large forces, computeH changes by L*L, L or 1 according to the coordinates, and forwardDynamics gives the same accelerations of angles and L times as large ones of lengths.", "quantifier": "all trees, joint types and directions, positions, velocities, accelerations, external forces, gravity, inertias (positive definite for forward dynamics) and every factor L other than zero", "why_tests_cant": "Confusing a linear with an angular component, or a moment arm with a direction, can go unnoticed in one unit and for the few robots a test uses; the claim is about all robots and units.", "anchors": ["src/RBDyn/RBDyn/Joint.h:pose", "src/RBDyn/FK.cpp:forwardKinematics", "src/RBDyn/FV.cpp:forwardVelocity", "src/RBDyn/FA.cpp:forwardAcceleration", "src/RBDyn/ID.cpp:inverseDynamics", "src/RBDyn/FD.cpp:computeH", "src/RBDyn/FD.cpp:computeC", "src/RBDyn/FD.cpp:forwardDynamics", "src/RBDyn/CoM.cpp:computeCoM", "src/RBDyn/CoM.cpp:computeCoMVelocity", "src/RBDyn/CoM.cpp:computeCoMAcceleration", "src/RBDyn/Momentum.cpp:computeCentroidalMomentum", "src/RBDyn/Momentum.cpp:computeCentroidalMomentumDot"]}
{"id": "C98", "title": "Results do not depend on how bodies are numbered", "statement": "Numbering the bodies and joints of the same robot in another way, with parents still before their children and the same state given to the same joints and bodies, gives every body the same pose, velocities and acceleration, the same centre of mass, its velocity and acceleration, and the same centroidal momentum and its rate. inverseDynamics and inverseDynamicsNoInertia give every joint the same torque, the entries of computeC and computeH are the same at the places of the joints in the new order, and forwardDynamics gives every joint the same acceleration. The Jacobian of the same body and point has the same columns, as have its time derivative and both in body axes, and the velocity and the normal acceleration of the point are the same. The matrices of CoMJacobian and CentroidalMomentumMatrix and their derivatives, with the same weight for each body, have the same columns at the places of the joints in the new order.", "quantifier": "all trees, all pairs of admissible numberings of one tree, joint types and directions, positions, velocities, accelerations, external forces, gravity, base accelerations and inertias (positive definite for forward dynamics)", "why_tests_cant": "A loop that mixes up a body with the one before it, or a joint with its place in the degrees of freedom, is right for chains and for the few numberings a test uses; the claim is about all trees and all numberings.", "anchors": ["src/RBDyn/FK.cpp:forwardKinematics", "src/RBDyn/FV.cpp:forwardVelocity", "src/RBDyn/FA.cpp:forwardAcceleration", "src/RBDyn/ID.cpp:inverseDynamics", "src/RBDyn/FD.cpp:computeH", "src/RBDyn/FD.cpp:computeC", "src/RBDyn/FD.cpp:forwardDynamics", "src/RBDyn/CoM.cpp:computeCoM", "src/RBDyn/CoM.cpp:computeCoMVelocity", "src/RBDyn/CoM.cpp:computeCoMAcceleration", "src/RBDyn/Momentum.cpp:computeCentroidalMomentum", "src/RBDyn/Momentum.cpp:computeCentroidalMomentumDot", "src/RBDyn/MultiBody.cpp:MultiBody::MultiBody", "src/RBDyn/Jacobian.cpp:Jacobian::jacobian", "src/RBDyn/Jacobian.cpp:Jacobian::bodyJacobian", "src/RBDyn/Jacobian.cpp:Jacobian::jacobianDot", "src/RBDyn/Jacobian.cpp:Jacobian::bodyJacobianDot", "src/RBDyn/Jacobian.cpp:Jacobian::velocity", "src/RBDyn/Jacobian.cpp:Jacobian::normalAcceleration", "src/RBDyn/CoM.cpp:CoMJacobian::jacobian", "src/RBDyn/CoM.cpp:CoMJacobian::jacobianDot", "src/RBDyn/Momentum.cpp:CentroidalMomentumMatrix::computeMatrix", "src/RBDyn/Momentum.cpp:CentroidalMomentumMatrix::computeMatrixDot", "src/RBDyn/ID.cpp:inverseDynamicsNoInertia"]}
{"id": "C99", "title": "Turning a joint around only changes the sign of its coordinate", "statement": "Building some revolute, prismatic or cylindrical joints of a robot with the other direction, and giving the position, velocity and acceleration of these joints the other sign, leaves every body's pose, velocities and acceleration, the centre of mass, its velocity and acceleration, and the centroidal momentum and its rate as they are. inverseDynamics and computeC give the turned joints the opposite torque and bias force and the others the same, an entry of computeH changes sign when exactly one of its two joints is turned, and forwardDynamics with the torques of the turned joints of the other sign gives these joints the opposite accelerations and the others the same. In the Jacobian of a body and point, in its derivative and in both in body axes, exactly the columns of the turned joints change sign, and the velocity and normal acceleration of the point are the same.", "quantifier": "every robot, set of turned joints, state, external forces, solver and positive definite inertias (for forward dynamics)", "why_tests_cant": "Unit tests fix a handful of robots and directions; the claim is an identity over unboundedly many topologies, every subset of joints and a continuum of values.", "anchors": ["src/RBDyn/RBDyn/Joint.h:Joint::forward, Joint::pose, Joint::motion, Joint::tanAccel", "src/RBDyn/FK.cpp:forwardKinematics", "src/RBDyn/FV.cpp:forwardVelocity", "src/RBDyn/FA.cpp:forwardAcceleration", "src/RBDyn/ID.cpp:InverseDynamics::inverseDynamics", "src/RBDyn/FD.cpp:ForwardDynamics", "src/RBDyn/Jacobian.cpp:Jacobian::jacobian, Jacobian::bodyJacobian, Jacobian::jacobianDot, Jacobian::bodyJacobianDot, Jacobian::velocity, Jacobian::normalAcceleration", "src/RBDyn/CoM.cpp:computeCoM, computeCoMVelocity, computeCoMAcceleration", "src/RBDyn/Momentum.cpp:computeCentroidalMomentum, computeCentroidalMomentumDot"]}
