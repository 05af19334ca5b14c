# RBDyn in Rocq: design

## What is modelled and how

* **Numbers.** `double` is modelled by the standard library's real numbers `R`.
  Rounding, overflow and NaN are not modelled. Every theorem is about the exact-arithmetic program.
* **C++ outcomes.** A function that can fail returns `res A`, with four outcomes:
  `Ok a`, `Throw e` (a C++ exception), `UB` (out-of-range index, `end()` dereference, Eigen size
  assertion), `Diverge` (the modelled recursion did not return within its fuel; theorems about
  termination say for which inputs this happens).
* **Containers.** `std::vector` is `list`, every indexed read or write is checked and gives `UB`
  when out of range. `std::map` / `unordered_map` keyed by name are association lists.
  Eigen dynamic matrices are a record (rows, columns, entry function); block reads and writes are checked.
* **Loops.** A C++ `for` is `for_up`/`for_down` over the index with the loop state threaded through
  the `res` monad, so each algorithm is a transcription of the statements of the C++ loop.
* **SpaceVecAlg and Eigen** are not in /repo. Their operations are modelled in `Sva.v` from their
  documented semantics (PTransform, MotionVec, ForceVec, RBInertia). This is part of the trusted base.
* **Pointers.** In the graph, a `shared_ptr<Node>` is an address in a heap of nodes, so that aliasing
  between graphs and between copies is visible.

## Layers (rocq/theories)

| layer | files |
|---|---|
| outcomes, vectors, matrices, spatial algebra, string maps | `Res.v`, `Vec.v`, `Sva.v`, `Mat.v`, `SMap.v` |
| code model, function by function | `JointM.v`, `MultiBodyM.v` (MultiBody, MultiBodyConfig), `KinM.v` (FK, FV, FA), `DynM.v` (ID, FD), `IDIMM.v`, `ISM.v`, `CoriolisM.v`, `JacM.v`, `CoMM.v`, `MomM.v`, `ZMPM.v`, `GraphM.v`, `IntegM.v`, `IkM.v`, `VisM.v`, `ParserM.v` (URDF, common), `YamlM.v` |
| specifications, independent of the model's helpers | `Spec*.v` |
| proofs | `*P.v` |
| property theorems only, each closed by `exact`, with `Print Assumptions` and examples meeting the hypotheses | `Prop_*.v` |

## Plan per property (see properties.jsonl)

* C01–C05 kinematics: model of FK/FV/FA loops; loop invariants; spec by recursion on the parent path.
  C02: SO(3) closure. C04: `derivable_pt_lim`.
* C06–C12, C63 dynamics: the key lemma is the principle of virtual power on a tree (adjointness of the
  forward velocity sweep and backward force sweep), proved by induction over the loop; the composite
  rigid body loop is related to it through the composite inertia. C10: LDLT is modelled as an arbitrary
  function that returns a solution of the linear system.
* C13, C14 IDIM: column expansion of the force sweep, linear in the 10 inertial parameters.
* C15 Coriolis matrix: projection of Newton-Euler by body Jacobians.
* C16 statics, C64 torque derivatives (`IsDerivP`, `IsLoopP`, `IsTopP`: the two loops keep, for each body, that the matrix times the speeds is the derivative of the force).
* C17–C23 Jacobians: path lemmas, the product with alpha is the velocity sweep; C23 (`RelP`,
  `RelTopP`, `RelFinP`): the shape of the path by where the two root paths join; refuted for three input classes.
* C24–C29 CoM; C30–C31 momentum: sums over bodies of Jacobian identities; C29 expected to be refuted.
* C32–C35 joints: case analysis on the joint type, trigonometric/quaternion identities; C34 expected refuted.
* C36–C41 multibody and configuration containers: list lemmas; C41 partly refuted (sForwardKinematics).
* C42–C51 graph: heap model with invariants over arbitrary operation histories; C50 expected refuted.
* C52–C53 integration; C54–C55 inverse kinematics; C56 ZMP; C57–C58 visual servoing;
  C59–C62 parser arithmetic (XML/YAML syntax itself is not modelled).
* C65 derivative of the velocity sweep; C66 vector Jacobian; C67 ZMP with a wrench; C68 the Coriolis matrix as
  Christoffel-type sums along a motion; C69 histories of graph operations by induction on the program; C70 exact
  integration of steady motion; C71 fixed point of inverse kinematics; C72 depth Jacobian.
* C73 choice of the reader; C74 single joints; C75 whole documents: the graph built by the readers is an
  unfolding of the named tree, and makeMultiBody of it is computed by induction on the tree; C76 the
  composition of writer and reader, element by element and then through C75. What the elements of a document
  say in C75 is a separate specification (SpecElem.v): types, unit axes, frames, mimic data, units and order of
  the limits, and energies of bodies, none of it through the functions of the readers.
* C77 (`SubP`, `SubTopP`, `SubRelP`, vocabulary in `SpecSub`): induction along the chain with the invariant that
  entries walked towards the root sit at the mount frames of their joints, entries above the turn at the bodies.
* C78–C79 (`SafeP`, `SafeTopP`, `SafeCoMP`, `SafeComTopP`, `SafeExP`, vocabulary in `SpecSafe`): every safe function is its
  checks followed by the plain function, and the plain function returns on every input whose sizes pass the checks (loop
  invariants about sizes only, for arbitrary contents). What is read and not checked is refuted.
* C80–C81 (`GeomP`, `GeomYamlP`, `GeomRtP`, `GeomExP`, vocabulary in `SpecGeom`): a relation says what each element of a document
  describes; the readers are shown to compute it, element by element and then by induction over elements and links. C81 composes
  the writers with C80.
* C82 (`ReadSafeP`, `ReadRefP`, vocabulary in `SpecRead`): an invariant of the graph under construction (every pointer it holds
  points to something) and of the vectors of `makeMultiBody`, for any names and links, hence for graphs that are not trees.
* C83 (`UConvP`, `UConvRtP`, vocabulary in `SpecUConv`): the program is a function of its arguments, its standard input and its files;
  strings by induction, robots through C75 and C76 with the reader and the writer of different formats.
* C84–C85 (`NewtonP`, `Newton2P`, `Newton3P`, `NewtonExP`, `NewtonEx2P`, vocabulary in `SpecNewton`): the wrench of a subtree by the
  backward recursion of `inverseDynamics` transported to a fixed point; forward dynamics through C10; along a trajectory the
  derivatives of C04, C65 and C31, and a function with zero derivative is constant.
* C86 (`Reuse1P`–`Reuse6P`, `ReuseExP`, vocabulary in `SpecReuse`): two runs of the same call are compared step by step (a relational
  logic for the outcome monad), with the invariant that the buffers agree on what has been written so far and have equal sizes;
  an induction over histories shows that sizes and constants do not change.
* C87 (`FrameP`, `Frame2P`, `FrameExP`, vocabulary in `SpecFrame`): each function commutes with the change of coordinates of its
  arguments and result, step by step through the loops, without any hypothesis on the sizes (failures coincide).
* C88 (`BaseP`, `BaseExP`, vocabulary in `SpecBase`): through C08 the mass matrix is a sum over bodies of unit motions; a unit motion
  is zero outside the subtree and does not use the configuration of the roots; the rest through uniqueness of the sweeps and C10.
* C89 (`SimpsonP`, `PrecP`, `Prec2P`, `Prec3P`, `Prec4P`, `PrecExP`, vocabulary in `SpecPrec`): the sub-steps are shown to compute the
  composite Simpson sum of the velocity in the outer frame; its error is bounded by the fourth derivative (Simpson's error through the
  mean value theorem), whose norm is the estimate in the code; the true motion is unique.
* C90 (`InertiaP`, vocabulary in `SpecIne`): the quadratic form of the inertia that is read, against the energy of the body described.
* C91, C92 (`AccM`, `AccP`, vocabulary in `SpecAcc`): the indexed accessors with int indices, the setters, the python accessors of the
  motion subspace; induction over the sequence of edits. convertJoint through the invariant of the loop used for C40.
* C93 (`FilterP`, `ForestP`, `PruneP`, vocabulary in `SpecFilter`): a simulation between the loop over the document and the loop over the
  edited document (same graph, same limits); then the documents of C75 without the hypothesis that every link is reached: the robot is
  the part reached from the first link. Names must be given (YAML numbers the links that give none, also those it leaves out).
* C94 (`RerootP`, vocabulary in `SpecReroot`): the readers build one graph whatever the base link; the two multibodies cover the same
  connected part of it, and C46 gives the relative poses. Axes must not be zero vectors (and must be unit vectors in YAML).
* C95 (`HoldP`, `HoldTopP`, `HoldExP`, `TurnMomP`, vocabulary in `SpecHold`): the recursions of the two robots over the same tree have the same
  transforms and increments joint by joint, hence the same solutions; `fixJoints` by the copy and rewrite of C49 and C50.
* C96 (`UnitsP`, `UnitsTopP`, `UnitsExP`, vocabulary in `SpecUnits`): each recursion and loop is homogeneous in the velocities, accelerations,
  gravity, forces and inertias, and its solution is unique; forward dynamics by injectivity of the positive definite mass matrix.
* C97 (`LengthP`, `LengthTreeP`, `LengthTopP`, `LengthExP`, vocabulary in `SpecLength`): every column of a motion subspace is either
  angular or linear, the operations on spatial vectors commute with the change of unit, and the recursions have one solution; forward
  dynamics through inverse dynamics and the positive definite mass matrix.
* C98 (`RenumP`, `RenumTopP`, `RenumJacP`, `RenumMatP`, `RenumIdP`, `RenumExP`, vocabulary in `SpecRenum`): a numbering s of the bodies carries the forward recursion of one
  tree to that of the other by induction along the parents, and the backward one by uniqueness of its solution, as a sum over all
  bodies does not change when they are permuted. Forward dynamics follows from inverse dynamics and the positive definite mass matrix.
  The path of a Jacobian is renumbered with the bodies, and the matrices over all joints are sums of such Jacobians. The identification
  and statics modules and MultiBodyGraph are not part of this claim.
* C99 (`TurnP`, `TurnTopP`, `TurnJacP`, `TurnMomP`, `TurnExP`, vocabulary in `SpecTurn`): a turned joint with coordinates of the other sign has the same pose,
  velocity and acceleration, and its motion subspace has the other sign; the recursions over the same tree have one solution. Forward
  dynamics follows from inverse dynamics and the positive definite mass matrix. Spherical, planar and free joints are not turned here,
  as their coordinates do not all change sign (see C32). The columns of a Jacobian are those of the motion subspaces along its path.

Status of each is in MANIFEST.json.

## Trusted base

* Coq 8.16.1's kernel, and the reading of each `Prop_*.v` statement with the `Spec*.v` file it uses.
* `Print Assumptions` stands under every theorem. The axioms it lists are all the standard library's:
  * `ClassicalDedekindReals.sig_forall_dec`, `ClassicalDedekindReals.sig_not_dec` (the real numbers),
  * `FunctionalExtensionality.functional_extensionality_dep` (the real numbers; equality of matrices and graphs given by functions),
  * `Classical_Prop.classic`, only in `C58_angle_axis_partial`, `C58_unit_axis_refuted`, `C58_pose_jacobian_partial`, `C58_pose_jacobian_refuted`, `C81_refuted` (through `acos`/`asin` of the standard library), `C84_momentum_conserved`, `C85_energy_conserved`, `C89_precision_partial` and `C89_steady_turn` (through the mean value theorem).
  * No axiom at all: `C38_plain_versions`, `C62_prefix_path`, `C73_from_file`, `C73_extension_exists`, `C81_complete_partial`.
  * Every other theorem lists a subset of the first three.
* No library but the standard one is used. No axiom, `Variable` or `Hypothesis` of our own outside sections.
* The transcription of the C++ into the model. Each definition cites the lines it models.

### Assumed about code outside /repo

* SpaceVecAlg: `PTransform`, `MotionVec`, `ForceVec`, `RBInertia`, `ABInertia`, `RotX/Y/Z`, `inertiaToOrigin`
  (taken as rot I rot^T plus the parallel axis term), `rotationError`, `rotationVelocity` follow their documentation (`Sva.v`, `IkM.v`, `VisM.v`).
  `sinc` is the exact function, not its Taylor switch.
* Eigen: fixed and dynamic matrices; out-of-range blocks are `UB` (an assertion in debug mode);
  `AngleAxisd`, `Quaterniond` to matrix; `eulerAngles(0,1,2)` is a function parameter constrained by its documented equation only;
  LDLT and SVD are function parameters, constrained only where a theorem says so.
  Uninitialised storage is an arbitrary value (`Garbage`).
* tinyxml2 and yaml-cpp: documents are the abstract syntax these libraries deliver (elements and
  attributes that are present or absent, numbers, sequences). Concrete syntax is not modelled.
  Printing of numbers in URDF is a function parameter (`Writer`): exact for the round-trip theorems, at most
  six digits for the refutations.

### Modelled

Joint (all seven types, mimic; not the constructor from the old type names), MultiBody (with its int accessors and setters, plain and checked, and the python accessors of the motion subspaces), MultiBodyConfig (constructors, zero, conversions, ConfigConverter, all
safe and unsafe param/vector copies), FK, FV, FA and their safe versions, InverseDynamics (with and without external forces, NoInertia),
ForwardDynamics (H, C, forward dynamics), IDIM, InverseStatics (inverseStatics, constructor, setJacobianSize, computeTorqueJacobianJoint), Coriolis, Jacobian
(all body, bodyDot, vector, translate, fullJacobian, expand, compact path, relative constructor, subMultiBody, all safe versions), CoM, CoMJacobian, CoMJacobianDummy,
centroidal momentum and its matrix, ZMP, MultiBodyGraph (all operations, with a heap), NumericalIntegration, InverseKinematics, VisServo,
the URDF and YAML readers and writers (bodies, joints, limits, frames, graph, filters, visual and collision elements, materials), prefix_path, from_file, the converter's main program.

### Not modelled

* Rounding, NaN and overflow of `double`; `int` is unbounded.
* Concurrency (RBDyn has none), memory exhaustion, destructors.
* Python bindings. A `Geometry` or `Material` whose type and data disagree.
* Text of exceptions: only their type.

## Findings

Each of these is a theorem (`..._refuted`, with a concrete witness) unless marked (o), for an observation made while modelling.

**Kinematics and joints**
* C32/C04: for reversed Spherical, Planar and Free joints, `motion()` is not the velocity of the reversed pose.
* C04: for planar joints alpha is expressed in the moving frame and is not the derivative of q.
* C34: the zero of a mimic spherical or free joint is not a unit quaternion: the offset is added to every component.
* C41: `sForwardKinematics` does not check the motion subspaces, and `sInverseKinematics` neither alpha nor body and joint velocities; both then read out of range.
* (o) `ID` with `NoInertia` has the opposite sign of external forces; see the statement of C06–C08 for what each function computes.

**Centre of mass, momentum, ZMP**
* C29: `CoMJacobian::sWeight` compares the old weight vector with the number of bodies.
* C56: ZMP is wrong for gravity that is not vertical. C67: the complete form of the centroidal ZMP is wrong at altitudes other than 0 and for vertical accelerations.
* C64: `computeTorqueJacobianJoint` has the wrong sign for the part of a sliding joint between two bodies (the block of MJ is hat(RfF), its opposite is needed), and is right for revolute and fixed ones. The Jacobians of the external forces enter with the opposite sign: the result is right for Jacobians of minus the forces. The tests of the repository use empty Jacobians only.
* (o) CoM, CMM and Coriolis look up bodies by name, so equal names would be merged.

**Jacobians**
* C77: with a reference body, `subMultiBody` composes the two placements at the turn in the wrong order
  (Jacobian.cpp 105-159). The chain is right exactly when they commute (`C77_turn_exact`, `C77_turn_refuted`).
* C23: with a reference body, the root joint is on the path when the root is the only common ancestor, so the velocity of the root is added (`C23_root_added`: always wrong when the root moves). When the body is an ancestor of the reference, the point is taken on another body. For a body relative to itself the path is empty, and `jacobian` reads its last element. With the root as the reference, the result is in world axes, not in the axes of the root.

* C78: `sNormalAcceleration` and `sBodyNormalAcceleration` read `jointVelocity`, and the latter `bodyVelB`, without checking their sizes. The check of the path accepts a Jacobian of another robot as long as the joint indices exist, and then writes outside its matrices; `sVelocity` does not check the path at all. All are undefined for a Jacobian of a body relative to itself.
* C79: `CoMJacobian::sNormalAcceleration` and `sNormalMomentumDot` do not check `jointVelocity` either. `sConvert` compares the two configurations with each other only, so two short ones are read out of range.

**Graph**
* C43: `removeJoint` throws midway, with part of the graph removed, when one joint is used for two links.
* C45: two bodies linked twice are duplicated by `makeMultiBody`; with a cycle of three bodies or more it never returns.
* C48: a joint that is not linked, or not reachable from the root, is not removed; a link of the root named like the root joint is never found.
* C49: copying the graph left by such a `removeJoint` stores a null pointer.
* C50: `fixJoints(all, {})` fixes no link; `jointByName` still returns the old joint; a later `removeJoint` is undefined behaviour.

**Integration, inverse kinematics, visual servoing**
* C53: a negative step with a turning free or planar joint converts NaN to int.
* C89: the number of sub-steps follows from the fourth derivative at the two ends of the step, so the bound is proved when it is not larger in between (always for a constant angular velocity).
* C54: the flag of inverse kinematics concerns the pose before the last update. C55: a spherical or free joint on the path is read out of range.
* C58: the axis of `getAngleAxis` is 2 sin(a) n instead of n, so `poseJacobian` is wrong in general.
* C72: `depthDotJacobian` has the linear part first, unlike `imagePointJacobian`; its parameter is named speed and must be the point.
* C86: vectorJacobian and vectorBodyJacobian return a matrix whose angular rows are left from earlier calls (the header says that only the linear part is filled). forwardDynamics with fewer torques than degrees of freedom uses what an earlier call left. InverseStatics sizes its buffers in the first call only: wider Jacobians of the forces in a later call are undefined behaviour (size mismatch), although a new object accepts them.

**Parsers**
* C59: YAML rpy (moving axes) and URDF rpy (fixed axes) are different conventions, and `to_urdf` writes the former: general rotations change in a round trip. `to_urdf` prints six digits.
* C60: point masses: the URDF reader dereferences a null pointer on what `to_urdf` wrote, and the YAML reader gives them a unit inertia; a massless body with inertia crashes the URDF reader too.
* C90: `RPY` and `MatrixFromRPY` return the transposed rotation (the one of a `PTransform`), and both readers pass it to `sva::inertiaToOrigin`: an inertia in a rotated frame is turned the wrong way. This rests on `inertiaToOrigin(I, m, c, R) = R I R^T + ...` in SpaceVecAlg, which is not in /repo; if it is `R^T I R` the claim is the opposite; if it also turns the parallel axis term, the refutations stand (their centre of mass is the origin) but half turns with another centre of mass are wrong too (`C90_conventions_agree` says where the two formulas agree). The test files have no rotated inertial frames.
* C91: `body(num, b)`, `bodies(b)` and their checked versions do not update the table of names: after a body is replaced by one with another name, `sBodyIndexByName` throws for the new name and finds the body under the old one.
* C92: `convertJoint(from)` sizes the vector it returns like `from`: towards a multibody with more joints it writes outside of it. `sConvertJoint` only compares the two vectors with each other: two vectors of the same, too small, size are read and written outside of their bounds.
* C76: a robot read with another base link does not come back. `to_urdf` and `to_yaml` write the transform stored in the link of the graph (to_urdf.cpp 352-358), but `makeMultiBody` composes it with the inverse placement of the body it starts from when the graph is rooted elsewhere (`C76_other_base_refuted`).
* C61: limits of prismatic joints are scaled when angles are in degrees; short limit vectors are accessed out of range.
* C80: a URDF mesh without a filename makes a `std::string` of a null pointer, and a scale of neither one nor three numbers is out of range (or fails an assertion). In YAML the check of the size of a box or superellipsoid looks at a fixed-size vector, so a size of less than three components is read out of range; a scale that is a plain number is ignored. A visual that describes a material under the name of a shared one gets the shared one in URDF, its own in YAML; of two shared materials of one name URDF takes the first, YAML the last.
* C81: the writers drop the names of visual and collision elements and the elements of unknown shape, and put `file://` before other paths. URDF frames change as in C59.
* C82: the URDF reader dereferences a null pointer when a link has no name, an inertial no mass or inertia, a joint no name, type, parent or child, a mimic no joint. A YAML limit shorter than the joint is read out of range when angles are in degrees. A circle of three links is not rejected, the recursion never ends.
* C83: the converter takes the format from the first "robot" in the text, so a comment with that word makes it reject the document. With data on the standard input, two file names are ignored (the help says the first is read and the second written). Data that is not there when it starts is not read.
* C76: infinite limits are written as "inf", which the reader of attributes does not read: the vectors come back empty (`C76_urdf_infinite_limits_refuted`). A revolute joint whose `limit` has no `lower` and `upper` is read with empty vectors, and writing that robot is undefined behaviour, because `is_continuous` reads `[0]` of them (`C76_no_bounds_refuted`).
* C76: planar joints are written, but read as fixed (URDF) or rejected (YAML) (`C76_planar_refuted`). (o) A free joint whose name ends with the suffix is read as spherical.
* C76: in YAML, limits of joints of several dof are written as a nested sequence that the reader rejects, so robots with an inner floating joint are not read back (`C76_yaml_floating_refuted`); mimic is not written (`C76_yaml_mimic_refuted`). (o) The axis is not normalised; a first link with an empty name loses the base.
* C76: both writers ignore the velocity and torque limits of continuous joints (`C76_continuous_limits_refuted`). (o) They also ignore the child side transform of links; `isZero` drops values up to 1e-12.
* C76: spherical and cylindrical joints cannot be written (`C76_written`: the exact condition).
* (o) A malformed rpy attribute throws `std::string`; missing elements and attributes are null pointer dereferences.
* (o) A path without a dot is its own extension, and a dot in a directory name counts (C73 states the exact rule).

## Tests against wrong programs

`seeded/LOG.jsonl`: each line is an edit of a model definition, the claim it breaks, and the theorems that then fail to prove.
How it is counted: the edited copy is rebuilt; when a lemma no longer proves it is listed under `lemmas_broken` and replaced by an
admitted statement in the scratch copy; a theorem counts as failed when its proof uses such a lemma. So "failed" means that the
proof given here does not go through any more. Attempts from `p4b` on stop at the first such lemma of the claim, earlier ones go on to the end.
That the claim itself is false of the edited program is a judgement made by hand when the edit was chosen.
An empty `theorems_failed` is a survivor; `note` says what was done about it.
