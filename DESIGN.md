# Formal model of maliput in Rocq: design

Sources: `/repo` (maliput, pinned commit), read as text; nothing of it was built or run.
Model and proofs: `rocq/theories`, Coq 8.16.1.

## Layout

Each topic `X` has these files.

* `X_Model.v`: definitions only, function by function.  Each definition cites the file and
  lines it models and says what it simplifies.
* `X_Spec.v`: the vocabulary of the theorems: small definitions of what the result should
  be, which do not call the model's functions.  They only share its data types.  In early
  topics the same definitions are at the top of `X_Props.v`.
* `X_Proofs*.v`: lemmas and proofs.
* `X_Props.v`: the theorems named in `MANIFEST.json`, `Print Assumptions` under each, and
  `Example`s that meet the hypotheses with concrete, non-trivial data.

`Base.v` has the outcome type and comparisons, `Maps.v` association lists and a state monad
for calls that may throw after a partial update.

Theorem names: a full statement has a plain name; `_partial` marks a theorem that proves
part of a property (its comment says what is missing); `_refuted` gives a concrete input
for which the property as a user would state it is false of the faithful model.  These are
the findings below.

A property has status `proved` when its statement holds as written in `properties.jsonl`,
read with the side conditions named in the manifest's note, and `partial` when part of the
statement is refuted or open.  No property is open: for each one the model satisfies the
statement, or there is a refutation together with the strongest statement found to hold.

`seeded/LOG.jsonl` records the wrong programs the theorems were tried against: each entry
names the definition edited, the edit, the claim it breaks, and the theorems that stopped
proving.

## Modelling decisions

* **Outcome.** Functions that can throw return `outcome A := Ok a | Throw | UB`.
  `MALIPUT_THROW_*` and `.at()` are `Throw`.  Undefined behaviour and aborts (dereferencing
  an empty optional or a null pointer, `front()` of an empty vector, `std::clamp` with
  `lo > hi`, use of a moved-from pointer, `MALIPUT_ABORT_MESSAGE`) are the separate outcome
  `UB`; so is a loop that never ends, which the model cuts off by fuel.  Theorems that say a
  call returns exclude both.
* **Numbers.** A `double` is an exact rational `Q` in code that only compares, adds,
  multiplies and divides: every finite double is a rational and comparisons agree; rounding
  is *not* modelled.  `saturate`, range values and rule states use IEEE binary64 data
  (`SpecFloat`) with NaN and infinities, which is exact because only comparisons occur.
  `LaneDataFloat`, `Doubles`, `KdFloat`, `KdRange`, `Closest`, `Vectors`, `MatFloat` and `FixedText` compute in binary64 operation by operation, rounding included
  (`Binary64.v`, with the theory of rounding in `Binary64_Round.v`, `Binary64_Order.v` and `Binary64_Ext.v`).
  KD-tree regions use rationals extended with both infinities.  Linear algebra with square
  roots or trigonometry uses `R`; a NaN or infinite result is `None`.
* **Containers.** `std::vector` is `list`; maps and sets are association lists with unique
  keys or ascending lists; where the iteration order of an unordered container is
  observable, it is an argument of the model and theorems hold for every order.
* **Identifiers** are `nat` or `string`; equality and order are what the code uses.
* **Backends.** Virtual methods (`Lane::ToLanePosition`, `length`, ...) are parameters of the
  model: section variables, universally quantified in the closed theorems.
* **Histories.** Stateful classes are modelled by their calls; theorems quantify over all
  finite sequences of calls, including calls that throw half way.
* **Concurrency.** The thread pool is a labelled transition system with explicit mutexes,
  condition variables and spurious wake-ups; theorems quantify over all schedules.

## Properties

The statements are in `properties.jsonl`, the theorem names per property in `MANIFEST.json`.

| Id | Property | Model | How proved | Status |
|---|---|---|---|---|
| C01 | SRange::Intersects decides overlap of two s-intervals | `SRange` over Q (Regions) | case analysis, linear arithmetic | proved |
| C02 | SRange::Contains decides inclusion up to tolerance | Regions | case analysis, linear arithmetic | proved |
| C03 | SRange::GetIntersection returns the common interval | Regions | case analysis; refutation for tol > 0 and tol < 0 | partial |
| C04 | LaneSRoute::Intersects detects every overlap | `LaneSRoute::Intersects` over lists (Regions) | list induction; refutation | partial |
| C05 | IsIncluded is a union over the given ranges | `IsIncluded` with a ToLanePosition oracle (Regions) | list induction; refutation | partial |
| C06 | AxisAlignedBox::Overlaps/GetIntersection have set semantics | `AxisAlignedBox` over extended rationals (KdTree) | case analysis per axis | proved |
| C07 | KD-tree construction is total and well ordered | `MakeKdTree` with `nth_element` as any permutation meeting its contract (KdTree) | induction over point lists | proved |
| C08 | KDTree::nearest_point returns a closest point | nearest-point descent (KdTree) | induction over trees | proved |
| C09 | KDTree3D::RangeSearch returns exactly the points inside the box | range search with region pruning (KdTree) | induction over trees; refutation in the tolerance band | partial |
| C10 | FindRoadPositions (brute force) is exact | brute force strategy with lane oracles (Positions) | fold induction | proved |
| C11 | ToRoadPosition returns a closest road position | brute force strategy (Positions) | fold invariant with accumulated tolerance; refutation | proved |
| C12 | IsNewRoadPositionResultCloser is an asymmetric preference | comparator (Positions) | case analysis; refutation of transitivity | proved |
| C13 | KDTreeStrategy::FindRoadPositions agrees with brute force | KD-tree strategy (Positions) | on top of the KD-tree theorems; refutations | partial |
| C14 | BranchPoint sides stay consistent | branch point state machine (Hierarchy) | invariant over call histories; refutation | proved |
| C15 | Entity index is complete regardless of construction order | entity containers (Hierarchy) | invariant over call histories; refutation | proved |
| C16 | BasicIdIndex refines a map with unique keys | `BasicIdIndex` (Hierarchy) | invariant over call histories | proved |
| C17 | FindConfluentSegments computes a connected component | breadth-first search (Confluent) | termination measure, reachability invariant | proved |
| C18 | AnalyzeConfluentSegments partitions the segments | component loop (Confluent) | partition invariant; refutation | proved |
| C19 | SampleAheadWaypoints samples a route evenly | sampling loop (Waypoints) | induction on ranges and samples; refutations | proved |
| C20 | RangeValidator clamps into the open range or throws | `RangeValidator` (Scalar) | case analysis; refutation | partial |
| C21 | saturate clamps | `saturate` on IEEE data (Scalar) | case analysis on floats | proved |
| C22 | ManualRulebook FindRules answers by zone intersection | rulebook with range index (Rulebook) | refinement to a map, index invariant | proved |
| C23 | ManualRulebook GetRule refines a map | rulebook (Rulebook) | refinement to a map over histories | proved |
| C24 | ManualRulebook RemoveRule removes any present rule | rulebook removal (Rulebook) | index invariant; refutation | partial |
| C25 | PhaseRing covers the same rules in every phase | `PhaseRing` constructor (Phases) | exact acceptance condition; refutations | partial |
| C26 | ManualPhaseRingBook indexes rules to rings | phase ring book (Phases) | invariant over histories; refutation | partial |
| C27 | ManualPhaseProvider refines a map | phase provider (Phases) | refinement to a map | proved |
| C28 | Phase-driven rule state providers agree with the current phase | phase driven providers (Phases) | on top of the books; refutations | proved |
| C29 | Manual state providers only hold valid states | manual state providers (RuleStates) | invariant over histories; refutation | partial |
| C30 | Rule::State equality is an equivalence | rule states (RuleStates) | algebra over maps; refutation | partial |
| C31 | RangeValueRule::Range operator< is a strict weak order | ranges on IEEE data (RuleStates) | order laws; refutation with NaN | proved |
| C32 | RuleRegistry builds only registered states | rule registry (RuleStates) | invariant over histories | proved |
| C33 | FilterRules is the conjunction of its filters | rule filters (RuleStates) | list induction | proved |
| C34 | IntersectionBook lookups agree with its contents | intersection book (Intersections) | invariant over histories; refutations | partial |
| C35 | Routing graph edges match segment connectivity | graph construction (Graph) | fold invariants; refutations | partial |
| C36 | FindAllEdgeSequences enumerates simple drivable paths | path search (Graph) | soundness and completeness by induction | proved |
| C37 | FindLaneSequences returns exactly the simple lane paths | lane sequence search (LaneSeqs) | soundness and completeness by induction | proved |
| C38 | U-turn removal removes exactly the U-turns | U-turn removal (LaneSeqs) | list induction; refutations | partial |
| C39 | DeriveLaneSRoutes yields contiguous routes | route derivation (LaneSeqs) | list induction; refutations | partial |
| C40 | Route lane relations are complete and mutually inverse | relations (Route) | case analysis over indices; refutations | partial |
| C41 | Route construction guarantees end-to-end connectivity | `Phase`, `Route`, connectivity, lane route search (Route) | list induction, termination measure; refutations | partial |
| C42 | FindRoutePosition / FindPhasePosition return a closest position | position queries (Route) | fold invariants; refutations | partial |
| C43 | Routing constraints are honoured | distance router and constraints (Router) | on top of the path search; refutations | partial |
| C44 | ThreadPool runs every queued task exactly once | thread pool (ThreadPool) | invariants over all schedules | proved |
| C45 | ThreadPool shutdown terminates | thread pool (ThreadPool) | termination measure over all schedules; refutation | partial |
| C46 | GeoMesh face round trip | geometry mesh (Mesh) | invariant over histories | proved |
| C47 | EmitObj index offsets chain across meshes | OBJ emission as records (Mesh) | list induction | proved |
| C48 | Douglas-Peucker simplification keeps the polyline within tolerance | Douglas-Peucker (Simplify) | induction on intervals; refutations | partial |
| C49 | Mesh simplification partitions the faces | face grouping and outlines (Simplify) | partition invariant, termination; refutations | proved |
| C50 | Precise road mesh tiles the lane surface | road surface meshes (RoadMesh) | loop invariants, area argument; refutations | partial |
| C51 | Change notification invalidates all dependents | dependency trackers (Tracker) | depth-first search invariant | proved |
| C52 | Cached evaluation never serves stale values | cache entries (Tracker) | freshness invariant over all histories | proved |
| C53 | Phase ring loader applies defaults per phase | phase ring loader (Loaders) | fold over documents; refutations | partial |
| C54 | Unique bulb id strings are unique | unique ids (UniqueId) | string induction; refutation | partial |
| C55 | create_directory_recursive creates all parents | paths and directories (Files) | string and component induction; refutations | partial |
| C56 | Matrix inverse and determinant laws | matrices of any size over R (Matrix) | alternating multilinear algebra | proved |
| C57 | Quaternion rotations are isometries and compose | quaternions over R (Rotation) | polynomial identities | proved |
| C58 | Quaternion::FromTwoVectors rotates one vector onto the other | FromTwoVectors (Rotation) | case analysis, real analysis; refutations | partial |
| C59 | RollPitchYaw conversions agree | roll-pitch-yaw (Rotation) | trigonometric identities | proved |
| C60 | BoundingBox::Overlaps is right for rotated boxes | bounding boxes over R (Box) | convexity, separating axes; refutations | partial |
| C61 | Road network validation accepts only consistent networks | validator and invariants (Validator) | one equivalence per check; refutations | partial |
| C62 | Lane stripes, arrows and grid units | stripes, arrows, grid unit (RoadMesh) | loop invariants; refutation | proved |
| C63 | Traffic light books load what is written | traffic light loader (Loaders) | list induction | proved |
| C64 | Rule registries load what is written | rule registry loader (Loaders) | list induction; refutation | partial |
| C65 | RollPitchYaw derivatives | roll-pitch-yaw derivatives (Rotation) | derivatives over R | proved |
| C66 | RollPitchYaw from a quaternion | roll-pitch-yaw from quaternions (Rotation) | trigonometry over R | proved |
| C67 | Quaternions from matrices and axes, interpolation and distance | quaternions from matrices and axes, slerp, distance (Rotation) | trigonometry over R | proved |
| C68 | Orientations and their distance | Rotation and InertialPosition of lane_data.cc over R (LaneData) | spherical triangle inequality, Minkowski, trace formula | proved |
| C69 | Distance of equal orientations in double precision | the same functions in binary64 (LaneDataFloat, Binary64) | NaN propagation for all inputs; witness by computation | partial |
| C70 | Polynomial operators compute the polynomial they are written as | drake Polynomial over exact rationals (Poly) | induction on expressions; invariant: distinct variables per monomial, no two monomials alike | partial |
| C71 | Calculus of univariate polynomials | EvaluateUnivariate, Derivative, Integral, GetCoefficients (Poly) | slope defined by a quadratic bound on the remainder; power rule by induction | partial |
| C72 | Polynomial variable names and ids | name and id conversion with 32 bit arithmetic (Poly) | base 31 digits | partial |
| C73 | Trajectories evaluate as their polynomials say | segment search, evaluation, derivative, integral (Traj) | binary search invariant; derivatives of sums of monomials | partial |
| C74 | Moving, cutting and joining trajectories keeps the values | changes of time, slices, concatenation, appended segments (Traj) | affine change of the break list; Taylor shift by Substitute | partial |
| C75 | Trajectory operators act on the values | operators, blocks, comparison, constructor (Traj) | entrywise, over the segment lookup of equal breaks | partial |
| C76 | Trajectories through samples | holds, Hermite, pchip, splines, Lagrange (Traj) | Hermite form; convexity of the slope box; shooting, with a two by two system for the end conditions and diagonal dominance for uniqueness; Newton form | partial |
| C77 | Comparisons report no difference exactly when the fields agree | IsEqual of api and rules, collector (Compare) | silence of a collector is silence of every entry; same size and inclusion give equality of keys; findings by witnesses | partial |
| C78 | Comparisons return and do not depend on the order of the arguments | the same functions with outcomes (Compare) | every argument of a collector returns; symmetry from the exact characterisations | partial |
| C79 | Closeness means within the tolerance | Is...Close of api and routing, over rationals and doubles (Compare) | case analysis; |a-b| = |b-a| through the rounding of SpecFloat | partial |
| C80 | CompareVectors and CompareMatrices | CompareVectors, CompareMatrices over doubles (Compare) | case analysis of special values; rounding keeps signs | partial |
| C81 | CheckIdIndexing detects every wrong index | CheckIdIndexing (Compare) | induction over junctions | partial |
| C82 | Rulebook documents of the rule registry load as described | registry based rulebook loader on YAML trees (RuleLoaders) | functional spec of documents; each reader is exact; induction over lists of rules and zones | partial |
| C83 | Rulebook documents of the old format load as described | old rulebook loader with derived rules (RuleLoaders) | as C82, plus injectivity of derived ids | partial |
| C84 | Phase rings over right of way rules load as described | phase rings over right of way rules (RuleLoaders) | per row characterisation, induction over phases | proved |
| C85 | Intersection books load as described | intersection book loader and its effect on the provider (RuleLoaders) | invariant over processed prefixes | partial |
| C86 | Built-in rule types have the documented values | built-in rule types against the documentation (RuleLoaders) | computation of the lists; membership for all derived rules | partial |
| C87 | Integration steps respect the step limits, the accuracy and the events | IntegratorBase stepping, RungeKutta3 step (Integ) | step loop keeps an invariant on the integrator; accepted steps are Kutta steps by their tableau; induction over steps | partial |
| C88 | Solve returns the solution whatever was solved before | InitialValueProblem::Solve with its cache (Integ) | relations kept by every Kutta step are carried through all histories; Simpson is exact on cubics; mean value theorem for Lipschitz bounds | partial |
| C89 | Solve ends | the same loops with fuel (Integ) | measure on the attempted size inside a step and on the time left outside; monotone in fuel | partial |
| C90 | DenseSolve interpolates the solution over exactly its interval | DenseSolve, Hermite segments (Integ) | trace of segments along the path; forgetting the dense output commutes with stepping | partial |
| C91 | Arc length integrators and their functors | arc length integrators and functors (Integ) | instances of C88 to C90; convex combination of slopes | partial |
| C92 | The Fresnel coordinates are those of the integrals | fresnel.cc with its coefficient tables (Fresnel) | the error has a small derivative: the derivative of each rational approximation is a polynomial identity, compared with Taylor bounds of sin and cos (or with the asymptotic form) by nonnegative polynomial coefficients after shifting; the two methods are compared where they meet by interval arithmetic; mean value theorem | partial |
| C93 | The spiral heading is the direction of travel of the spiral | FresnelSpiralHeading, FresnelSpiralHeadingDot (Fresnel) | derivative of a scaled composition | proved |
| C94 | Search paths and file listings | file_utils.cc over directory trees (Plugins) | induction over strings and nested induction over trees; paths determine their names | partial |
| C95 | The plugin manager offers the last plugin found with each id | MaliputPlugin, MaliputPluginManager over an environment of files and libraries (Plugins) | invariant of the table: keys, fresh objects, open handles; induction over the libraries found | partial |
| C96 | Road network loaders come from the plugin with their id | MakeRoadNetworkLoader and CreateRoadNetwork with the static manager (Plugins) | induction over sequences of calls in changing environments | partial |
| C97 | GenerateString shows the road geometry and its text tells it | GenerateString as a string function of the tree of ids (Texts) | induction over the tree; a decoder of lines; cutting lists of items at their rank | proved |
| C98 | GenerateDotStream draws every edge and marks exactly the route | GenerateDotStream with and without route (Texts) | induction over edges and phases; splitting lines at the first blank and quote | proved |
| C99 | The logger delivers exactly the messages at or above its level | Logger as a state machine over histories of calls (Texts) | induction over histories | proved |
| C100 | Membership with tolerance survives rounding | Lane::Contains and AxisAlignedBox on binary64 (Doubles) | rounding is monotone, keeps doubles and errs by one part in 2^53: a theory of add, subtract, multiply and compare derived from SpecFloat (Binary64_Round, Binary64_Order) | proved |
| C101 | RangeValidator on doubles stays in its range | RangeValidator on binary64 (Doubles) | as C100; a number between two doubles is finite | proved |
| C102 | SRange comparisons on doubles | SRange on binary64 (Doubles) | as C100 | proved |
| C103 | Sampling loops on doubles end and sample evenly | the sampling loops on binary64 (Doubles) | induction on the turns left, each advancing by half a step or more; induction over ranges with the accumulated error | proved |
| C104 | Nearest point search on doubles | KDTreeBase::nearest_point and SquaredDistance on binary64, infinities included (KdFloat) | rounding is monotone, so the rounded square of one coordinate never exceeds the rounded sum: pruning is safe; error bound by induction on the dimension | proved |
| C105 | Range search on doubles | KDTree3D on binary64: construction with regions, RangeSearch (KdRange) | by induction over the tree: a point is within the region of its node, so a disjoint node has no point between the corners and a contained node only points the region contains | proved |
| C106 | Road network construction and membership | RoadNetwork constructors and Contains, on the hierarchy model of C15 (Network) | case analysis; the index invariant over histories of C15 | partial |
| C107 | Traffic light books and rule tools | TrafficLightBook, rule_tools.cc on the manual provider of C29 (Network) | induction over histories of additions and of SetState calls | proved |
| C108 | Road position searches by brute force on rounded doubles | strategy_base.cc and BruteForceStrategy computed in binary64 (Closest) | rounding error of one subtraction; induction over the selection loop | partial |
| C109 | Road position searches over sampled points on rounded doubles | KDTreeStrategy computed in binary64 on the trees of C104 and C105 (Closest) | from C104, C105 and C108; the rounded corners of the region enclose the exact cube; square roots of numbers are numbers | partial |
| C110 | Vectors of rounded doubles | vector.cc computed in binary64, for every dimension (Vectors) | induction over components; symmetry of rounding; no difference of doubles rounds to zero | partial |
| C111 | Vectors written as texts | FromStr with 64 bit positions and to_str (Vectors) | induction over the components left, with the part of the text already read | partial |
| C112 | Matrices of rounded doubles | matrix.cc computed in binary64, for every dimension (MatFloat) | entry by entry from C110 | partial |
| C113 | Numbers written with a fixed number of digits | string_format.cc and FormatMaterial on binary64 values (FixedText) | rounded quotient of integers; induction over digits; a text is split in one way at its point | partial |

## Findings

Each is proved of the model as a `_refuted` theorem (or stated by the theorem named), with a
witness.  They were not run against the library.

Regions
* `srange_intersects_widens_both_refuted`: the documentation of `SRange::Intersects` has the tolerance widen both ranges; the code widens one.
* `srange_get_intersection_order_refuted`, `srange_get_intersection_negative_refuted`: with a positive tolerance `SRange::GetIntersection` may return a reversed range, with a negative one a range outside its argument.
* `lane_sroute_intersects_refuted`: `LaneSRoute::Intersects` compares each range only with the first range on the same lane, so a route that visits a lane twice misses overlaps.
* `is_included_order_refuted`: `IsIncluded` decides by the first range on a lane, so its answer depends on the order of the ranges.

KD-tree, positions
* `kd_tree_range_search_band_refuted`: pruning ignores the tolerance the box's `Contains` uses, so points in the tolerance band are found or not depending on the tree.
* `closer_transitive_refuted`, `to_road_position_closest_refuted`: the comparator is not transitive, and small losses add up from lane to lane.
* `kd_find_road_positions_complete_refuted`, `kd_find_road_positions_once_refuted`: the KD-tree strategy misses lanes whose samples are far apart and may repeat lanes.

Road geometry
* `branch_point_back_pointer_refuted`: a throwing `AddABranch` leaves the lane with a back pointer (or an end in the set) behind.
* `hierarchy_duplicate_id_refuted`: adding an object with a used id throws but leaves it in its container, not in the index.
* `analyze_confluent_segments_coverage_refuted`: segments without branch points are in no confluent set, and an empty set is reported.
* `sample_waypoints_backwards_refuted`, `sample_waypoints_empty_refuted`: `SampleAheadWaypoints` gives no samples on ranges travelled backwards; an empty route is undefined behaviour.
* `range_validator_inverted_clamp_refuted`: `RangeValidator` accepts an epsilon above half the range and then calls `std::clamp` with inverted bounds.

Rules
* `rulebook_remove_repeated_lane_refuted`: removing a rule whose zone has two ranges on one lane throws and leaves the index inconsistent.
* `phase_ring_bulbs_refuted`, `phase_ring_next_outside_refuted`: `PhaseRing` accepts phases with different bulbs, dereferences an empty optional for others, and does not check next phases.
* `ring_book_add_refuted`: a failed `AddPhaseRing` leaves part of its rules registered.
* `phased_discrete_undefined_refuted`, `default_provider_state_refuted`: phase driven providers answer from manual states for rules not in the ring, and throw when a next phase is foreign.
* `rule_state_eq_symmetric_refuted`, `manual_provider_state_refuted`: `Rule::State::operator==` is not symmetric (the left ids only have to be among the right ones), so providers accept states the rule does not have.
* `range_less_nan_refuted`: `Range::operator<` is no strict weak order when bounds are NaN.
* `intersection_book_duplicate_refuted`, `intersection_find_no_phase_refuted`: adding a duplicate intersection uses a moved-from pointer; intersections without a current phase are not found by rule.

Routing
* `build_graph_merge_refuted`, `build_graph_loop_refuted`: the graph drops branch points when two nodes have to be merged, and doubles branch points of loops.
* `find_lane_sequences_no_repeats_refuted`: lanes joined at both ends make a sequence appear twice.
* `u_turn_kept_refuted`, `u_turn_free_dropped_refuted`: `HasUTurn` compares the wrong ends.
* `derived_routes_contiguous_refuted`, `derived_routes_traverse_refuted`: derived routes are discontiguous on rings and have zero-length ranges at U-turns.
* `relation_mirror_refuted`, `coincident_equal_refuted`: relations are not mirror images when the gap is dead ahead; "coincident" compares indices.
* `phase_right_to_left_refuted`, `route_constructor_connectivity_refuted`, `connected_one_to_one_refuted`: constructors accept reversed lane lists and unconnected phases; the connectivity check is not one-to-one.
* `lane_s_route_begins_at_start_refuted`, `lane_s_route_off_route_throws`, `lane_s_route_terminates_refuted`: a lane route begins with its whole first range; a start off the route throws though the documentation promises the closest; the search may never end.
* `find_phase_position_minimal_refuted`, `find_phase_position_range_refuted`: the closest position in a phase is not minimal and is reported on the first range of its lane.
* `no_lane_switch_sound_refuted`, `no_lane_switch_complete_refuted`, `one_bad_route_throws_refuted`, `fork_without_route_refuted`, `segment_behind_refuted`: the router's lane-switch constraint is neither sound nor complete, one unconnected candidate makes the whole query throw, and segments behind the start are not reached.

Utilities
* `never_started_destructor_refuted`: destroying a thread pool that was never started blocks for ever.
* `obj_faces_have_their_material` (side condition): a mesh with an empty material name inherits the material of the mesh before it.
* `douglas_peucker_closed_refuted`, `douglas_peucker_segment_refuted`, `douglas_peucker_minimal_refuted`: a closed polyline loses everything, distances are to the line and not to the segment, redundant vertices may stay.
* `simplify_closed_group_refuted`, `simplify_hole_refuted`, `simplify_degenerate_face_refuted`, `simplify_scaled_tolerance_refuted`: closed coplanar groups abort, holes are filled, thin strips become two-vertex faces, normals not of length one scale the tolerance.
* `precise_mesh_tiles_refuted`, `optimized_mesh_tiles_refuted`, `lane_arrows_within_lane_refuted`: meshes miss widening parts and bays; arrows may leave narrowing lanes.
* `unique_id_strings_refuted`: unique id strings collide when ids contain the delimiter.
* `phase_ring_defaults_refuted`, `phase_ring_invalid_bulb_state_refuted`, `phase_ring_graph_refuted`, `phase_ring_abort_refuted`: the loader keeps the previous phase's state for a rule a phase omits, does not check bulb states, tests `IsMap` on the wrong node, and aborts on some documents.
* `unknown_attribute_refuted`: the rule registry loader accepts unknown attributes beside a clean value.
* `one_letter_directory_refuted`, `existing_directory_refuted`, `trailing_slash_refuted`, `append_to_empty_refuted`: one-letter first components are not created, an existing directory is reported as failure, a trailing slash creates and returns false, appending to an empty path makes it absolute.

Mathematics
* `invertible_matrix_refuted`: matrices with a determinant under the tolerance are refused though invertible.
* `transform_non_unit_refuted`, `two_vectors_down_refuted`, `two_vectors_small_refuted`: `TransformVector` of a non-unit quaternion is no rotation; `FromTwoVectors` gives NaN for straight down with its opposite and the identity for tiny vectors.
* `box_orientation_refuted`, `overlap_missed_refuted`, `overlap_invented_refuted`, `overlap_columns_refuted`, `box_tolerance_refuted`: bounding boxes apply their orientation backwards, miss and invent intersections of rotated boxes (the offset is not rotated, and columns are used where the algorithm has rows), and ignore the tolerance for intersections.
* `distance_to_itself_refuted`, `invariants_upside_down_refuted`: in double precision the inner product of a rotated axis with itself may round above 1, `acos` is then NaN and so is `Rotation::Distance`: `IsContiguous` denies that a place is contiguous with itself (for the heading of the quaternion 2 + 3k, and for about a third of all headings tried), and `CheckInvariants` accepts lane ends that are upside down to each other, for every tolerance.

* `constructor_merges_refuted`, `addition_refuted`: `Polynomial(coefficient, terms)` compares a term with those before its left neighbour only (`j < i - 1`), so x*x from {x, x} keeps two factors, passes for univariate, is evaluated and differentiated as x, and x*y + x*x becomes 2*x*y.
* `substitute_refuted`, `subs_combines_refuted`: `Substitute` adds the factors of a monomial instead of multiplying them (x*y with 2 for x gives 2 + 2*y); `Subs` does not combine what has become alike.
* `equality_refuted`: x*y is neither equal nor almost equal to y*x.
* `univariate_flag_refuted`: (x + y) - y is x but throws when evaluated, differentiated or read as univariate.
* `long_names_refuted`, `nul_name_refuted`: variable names longer than four letters are accepted when their number overflows and may share the id of another (`og#mv.i` and `x`); the character NUL is accepted.
* Not modelled, by reading: `p += p` appends to the vector it iterates over.

Trajectories
* `scalar_value_refuted`: `scalarValue` is documented as equivalent to `value(t)(row, col)`; out of range it extrapolates, `value` does not.
* `integral_of_derivative_refuted`: the derivative of a piecewise linear trajectory cannot be integrated: `Polynomial::Integral` throws on constants.
* `concatenate_tolerance_refuted`: ends further apart than `kEpsilonTime` are joined, the tolerance grows with the end time.
* `append_spacing_refuted`: segments shorter than `kEpsilonTime` can be appended although no constructor accepts them; `slice` of the result throws.
* `empty_slice_refuted`, `remove_only_refuted`: trajectories without segments but with a break, whose start_time() throws.
* `coefficient_wise_product_refuted`: `*` is documented as coefficient-wise and is the product of matrices.
* `operator_sizes_refuted`: matrices whose sizes do not fit are passed to Eigen, whose assertions are off in release builds.
* `shape_preserving_refuted`: with end slopes under 1e-10 rising samples are interpolated by a falling cubic.

Validation
* `validate_null_refuted`, `validate_coverage_refuted`, `validate_zones_refuted`, `validate_light_refuted`, `validate_phase_state_refuted`, `validate_branch_point_refuted`: with default options null pointers are dereferenced before the hierarchy check throws; coverage only asks that a rule touches the lane; zones of old-style rules are not checked; a light that does not exist passes when none of its groups is listed; phases may carry states with unknown related rules; lanes may be attached to branch points outside the geometry.

Comparisons
* `rule_states_compared_refuted`: `IsEqual(RuleStates)` compares sizes only, so phases with different right of way states compare as equal.
* `discrete_value_compared_refuted`: `IsEqual(DiscreteValue)` ignores severity, related rules and related ids, and so do phases.
* `discrete_values_compared_refuted`, `bulb_groups_compared_refuted`: vectors of discrete values and related bulb groups are compared one way, so a repeated value hides another and a subset passes.
* `double_compared_refuted`: doubles one epsilon apart compare as equal, which is not transitive.
* `optional_comparison_refuted`: `IsEqual(optional<double>)` throws `bad_optional_access` when only the first has a value; next phases and bulbs inherit it.
* `phase_comparison_refuted`: a phase with a rule the other lacks makes `IsEqual(Phase)` throw `out_of_range`; bulb states against none dereference an empty optional.
* `lane_end_null_refuted`: `IsLaneEndEqual` dereferences a null lane when exactly one lane is null.
* `nan_close_refuted`: a NaN coordinate is close, and equal, to everything.
* `compare_relative_refuted`: with a relative tolerance an infinite component passes for any number, even the opposite infinity.
* `id_indexing_refuted`: `CheckIdIndexing` looks at branch points inside the loop over junctions, so not at all without junctions.

Rule loaders
* `rulebook_zone_refuted`: only `s1 <= length` is checked, so a reversed range may start beyond the end of its lane.
* `rulebook_values_lost_refuted`: a rule node with both `values` and `ranges` silently loses its values.
* `rulebook_related_dropped_refuted`: related entries that are not maps, and scalar values, are dropped without an error; empty groups are lost; yet a missing `related_rules` throws although the kind of rule is recognised without it.
* `rulebook_values_contained_refuted`: values of a rule are told apart by one-sided containment of their related ids, so a rule with two different values, one with fewer related ids, is refused.
* `old_rulebook_delimiter_refuted`: derived bulb group ids join light and group with `-`; ids containing it collide and a legitimate rule throws.
* `old_rulebook_yield_refuted`: a repeated yield id is legal in the right of way rule and throws in the derived rule.
* `ring_loaders_disagree_refuted`: in a phase that does not mention a rule, the old loader takes the default state, the other one the state of the phase before.
* `intersections_refused_unchanged_refuted`: a document that throws has already changed the phase provider.
* `intersections_initial_phase_refuted`: two intersections at one ring are accepted; the initial phase of the first is lost.
* `intersections_abort_only`, `cross_abort`: on a repeated intersection id the error path may read the pointer just moved from (argument evaluation order is unspecified).
* `right_of_way_type_documented_refuted`, `derived_values_registered_refuted`: the registered right of way values are Go, Stop, StopAndGo; documentation and derived rules use StopThenGo.
* `stop_type_documented_refuted`: of the documented vehicle stop values only DoNotStop is registered.
* `direction_undefined_refuted`: direction usage Undefined exists as a state type and cannot be loaded.

Integrator
* `accuracy_met_or_throws_refuted`: a refused step cut down to exactly the minimum step is taken with an error estimate far above the accuracy, although the integrator is to throw.
* `solve_repeatable_refuted`: Solve(1) after Solve(1/2) differs from Solve(1) on a new problem.
* `solve_again_after_exception_refuted`: an exception leaves the context at the end of the refused step; the same call made again returns that state.
* `initialize_again_refuted`: without a requested initial step Initialize takes a tenth of the maximum, which may be below the requested minimum; initializing again then throws.
* `minimum_step_kept_refuted`: starting over with other values drops the requested minimum step size (`Reset` clears it, `ResetCachedState` does not restore it).
* `solve_nan_never_ends`: a derivative that is NaN at the initial values makes Solve shrink its step for ever.
* `zero_steps_never_end`: with the values of a default constructed IntegratorConfiguration every evaluation beyond the lower bound goes on for ever.
* `dense_solve_empty_throws`: DenseSolve to the initial time throws where an empty dense output is documented.
* `image_lower_bound_refuted`, `integral_from_p0_refuted`, `inverse_epsilon`: image_lower_bound, p0 and epsilon do not do what their documentation says.
* By reading: the documented stretch of the last step by 1% does not happen in error controlled mode, the step is capped at the maximum; DenseSolve throws when a rest shorter than 2^-52 remains.

Fresnel
* `fresnel_accurate_everywhere_refuted`: past 36974 the result is (1/2, 1/2), documented for infinity only; at sqrt(1367076677), about 36974.0, the cosine is off by more than 8e-6.
* `fresnel_nearby_everywhere_refuted`: the sine coordinate has a step of more than 8e-6 at 36974.
* By reading: the documentation puts the end of the power series at about 1.13, the code uses it up to sqrt(2.5625), about 1.6.

Plugins
* `suffix_finds_its_files_refuted`, `dotted_suffix_finds_nothing`: a suffix with a dot (".so", "tar.gz") matches no file.
* `bad_library_skipped_refuted`: one `.so` file below the search path that is not a plugin makes the manager's constructor throw, so no plugin is available.
* `plugin_pointer_valid_refuted`: AddPlugin with an id that is loaded destroys the plugin earlier pointers point to and closes its library.
* `later_plugins_found_refuted`: the search path of the first successful search decides for the rest of the process.
* By reading: a null pointer from GetMaliputPluginId is passed to std::string; a null loader is dereferenced.

Texts
* `text_tells_any_id_refuted`, `text_tells_long_id_refuted`: nothing in GenerateString is escaped; ids with leading blanks or line ends look like other road geometries.
* `details_shown_refuted`: `include_lane_details` without `include_lane_ids` shows nothing.
* `drawing_tells_red_refuted`: nothing in GenerateDotStream is escaped; a segment id with a quote can make its edge look red.
* `documented_levels_refuted`: set_log_level refuses the documented name "warning"; the table has "warn".
* `default_sink_blank_line`: messages end with a line end and the default sink adds another.

Doubles
* `exact_membership_refuted`: [0, 0.3] with tolerance 0.7 accepts 1, which is outside in exact arithmetic.
* `contains_answers_refuted`: Lane::Contains asks for the bounds at s before it compares s; a lane that checks s exactly throws for positions within the tolerance of its ends.
* `open_range_refuted`: RangeValidator promises values in (min, max); on [0, 1000] with absolute epsilon 1e-14 it returns 1000.
* `clamp_defined_refuted`: a range narrower than two epsilons is accepted and std::clamp is called with inverted bounds, which is undefined.
* `intersects_symmetric_refuted`: [0, 0.3] meets [1, 2] within 0.7, [1, 2] does not meet [0, 0.3].
* `sampling_loop_ends_refuted`, `sampling_step_zero`: loops over doubles do not end when the step is lost in rounding or zero; KDTreeStrategy does not check its step.

KdFloat
* `nearest_is_exact_minimum_refuted`: seen from the origin (1, 2^-30, 0) is returned although (1, 0, 0) is stored: their rounded distances tie.
* `nearest_of_nan`: a query with a NaN coordinate is not rejected; it returns the point at the root of the tree.

KdRange
* `range_search_reports_contained_refuted`: (0, 1, 0) is within the tolerance 1 of a region starting at x = 0.5, which contains it, and is stored, but is not reported.

Network
* `network_contains_position_refuted`: `RoadNetwork::Contains(RoadPosition)` accepts positions on lanes of other networks, whose ids `Contains(LaneId)` denies, and dereferences a null lane.
* `current_yield_group_of_rule_refuted`: a rule whose only state yields to rule 5 can have the current yield group 5, 6, as SetState accepts states whose groups are larger.

Closest
* `to_road_position_finite_refuted`: a comparison with a NaN distance falls through both thresholds of `IsNewRoadPositionResultCloser`, so a lane with a NaN distance can win against a lane at a finite one.
* `kd_find_negative_refuted`: brute force throws for every negative radius; the tree strategy only throws if the corners come out reversed, and accepts a radius of -2^-60 at (1, 1, 1).
* `grid_search`: the tree strategy reports the position on a lane once for each sampled point in the region.

Vectors and matrices on doubles
* `normalized_unit_refuted`: `normalized()` of (2^-600, 0, 0) is (inf, NaN, NaN), of (2^600, 3*2^700, 0) the zero vector, and of the zero vector NaN.
* `infinite_difference_refuted`: with an infinite component a == a but a - a is not Zero().
* `from_str_format_refuted`: `FromStr` accepts `}1,2{` and `{1 7,3}`; it is documented to throw.  By reading: the second argument of `substr` is a position, not a length, and the pieces are too long; and `to_str` prints 15 digits, too few to read back every double.
* `determinant_transposed_refuted`: a 3x3 matrix and its transpose with different determinants.
* `inverse_nan_refuted`: a matrix with NaN is not singular and `inverse` returns NaN throughout.

Numbers and materials as texts
* `fixed_text_zero_sign_refuted`: to_str(-0.001, 2) is `-0.00`.
* `material_visible_refuted`: with precision 0, which follows from a linear tolerance of 5 sqrt 3 (8.67) or more, FormatMaterial writes `d 0` for all materials except asphalt; with a digit or more (`material_visible`) never.  The number of digits for opacities is derived from a length.

## What is modelled

Paths under `src/maliput` unless they start with `include`.

| Topic | Code modelled | Left out |
|---|---|---|
| Regions | `api/regions.{cc,h}` | rounding (see Doubles for `SRange`); `IsContiguous` is in Validator |
| KdTree | `include/maliput/math/kd_tree.h`, `math/axis_aligned_box.cc` | rounding (see Doubles for boxes); NaN |
| Positions | `geometry_base/{strategy_base,brute_force_strategy,brute_force_find_road_positions_strategy,filter_positions,kd_tree_strategy}.cc` | lane geometry (oracles) |
| Hierarchy | `geometry_base/{lane,segment,junction,road_geometry,branch_point}.cc`, `lane_end_set.h`, `api/basic_id_index.cc` | geometry |
| Confluent | `utility/segment_analysis.cc` | |
| Waypoints | `RoadGeometry::DoSampleAheadWaypoints` in `api/road_geometry.cc` | rounding (see Doubles); inertial positions |
| Scalar | `common/range_validator.cc`, `math/saturate.cc` | rounding in the validator (see Doubles) |
| Rulebook | `base/manual_rulebook.cc`, front end of `road_rulebook.h` | rule payloads |
| Phases | `api/rules/phase_ring.cc`, `base/manual_phase_ring_book.cc`, `base/manual_phase_provider.cc`, phase driven providers | durations are opaque |
| RuleStates | `api/rules/rule.cc`, discrete and range rules, `api/rules/rule_registry.cc`, manual state providers, `base/rule_filter.cc` | |
| Intersections | `base/intersection_book.cc`, `api/intersection.cc`, `base/intersection.cc` | |
| Graph | `routing/graph/graph.cc`, `graph_utils.cc` | |
| LaneSeqs | `routing/find_lane_sequences.cc`, `derive_lane_s_routes.cc` | |
| Route | `routing/phase.cc`, `route.cc` | error texts; rounding |
| Router | `base/distance_router.cc`, `routing/routing_constraints.cc` | rounding |
| ThreadPool | `utility/thread_pool.{h,cc}` | memory model weaker than sequential consistency |
| Mesh | `include/maliput/utility/mesh.h`, emission in `utility/generate_obj.cc` | characters of the file; NaN |
| Simplify | `mesh_simplification.{h,cc}` | rounding |
| RoadMesh | `utility/generate_obj.cc` 112-490 | inertial mapping; rounding |
| Tracker | `drake/systems/framework/{dependency_tracker,cache,cache_entry}`, `context_base.h` | nested contexts, type checks |
| Loaders | `base/{traffic_light_book_loader,phase_ring_book_loader,rule_registry_loader,yaml_conversion}.cc`, `api/rules/traffic_lights.cc` | the parser of yaml-cpp |
| UniqueId | unique bulb ids in `traffic_lights.h`, `unique_id.h` | |
| Files | `common/filesystem.cc` | symbolic links, permissions, races |
| Matrix | `math/matrix.cc` | rounding |
| Rotation | `math/quaternion.{h,cc}`, `math/roll_pitch_yaw.cc`, parts of `vector.cc` | rounding |
| Box | `math/bounding_box.cc` | rounding |
| LaneData | `Rotation`, `InertialPosition::Distance` in `api/lane_data.{h,cc}` | rounding |
| LaneDataFloat | `Rotation::Distance` and its callers' comparisons in binary64 | sin, cos; acos is any function that is NaN above 1 |
| Poly | `drake/common/polynomial.{h,cc}` | rounding; roots of degree two and more; `p += p` (aliasing); symbolic expressions |
| Traj | `drake/common/trajectories/{piecewise_trajectory,piecewise_polynomial}.cc` | rounding; Eigen's solvers (any returned vector that solves the system); constants over infinite time; aliasing; the vector overloads (columns of samples) |
| Validator | `api/road_network_validator.cc`, `RoadGeometry::CheckInvariants`, `IsContiguous` | positions and rotations are parameters |
| RuleLoaders | `base/road_rulebook_loader{,_using_rule_registry}.cc`, `base/phase_ring_book_loader_old_rules.cc`, `base/intersection_book_loader.cc`, `base/rule_registry.cc` | YAML parsing (documents are trees); error texts; the default state of a bulb is taken eagerly |
| Compare | `api/compare.cc`, `api/rules/compare.cc`, `routing/compare.cc`, `math/compare.cc`, `include/maliput/common/compare.h` | text of the messages; a rotation is its matrix |
| Integ | `drake/systems/analysis/{integrator_base,runge_kutta3_integrator,initial_value_problem,scalar_initial_value_problem,antiderivative_function,dense_output,hermitian_dense_output}`, `drake/{arc_length_integrator,inverse_arc_length_integrator}.cc` | doubles are reals, NaN is a separate value, no overflow; derivative functions do not throw; fixed step mode, counters and integration to infinite times; loops carry fuel, `More` is a loop still running |
| Fresnel | `math/fresnel.{h,cc}` | doubles are reals: coefficients are exact decimals, no rounding, infinity or NaN |
| Plugins | `utility/file_utils.cc`, `plugin/{maliput_plugin,maliput_plugin_manager,create_road_network}.cc`, `plugin/maliput_plugin.h` | the file system is a tree per path that does not change during a call; dlopen and dlsym are functions of the path; logging is left out |
| Texts | `utility/{generate_string,generate_dot}.cc`, `common/logger.{h,cc}` | the characters of numbers and positions are parameters; edges in the order of iteration; one thread |
| Doubles | on binary64: `Lane::Contains`, `math/axis_aligned_box.cc`, `common/range_validator.cc`, `SRange` in `api/regions.cc`, the sampling loops of `geometry_base/kd_tree_strategy.cc` and `DoSampleAheadWaypoints` | the compiler keeps to binary64 (no extended precision, no reassociation) |
| KdFloat | on binary64: `nearest_point` and `SquaredDistance` in `math/kd_tree.h` (the tree itself as in KdTree) | stored NaN or infinite coordinates; the compiler keeps to binary64 |
| KdRange | on binary64: `KDTree3D` in `math/kd_tree.h` (the tree as in KdTree, boxes as in Doubles) | stored NaN or infinite coordinates |
| Network | `api/road_network.cc`, `base/traffic_light_book.cc`, `base/rule_tools.cc` (road geometries as in Hierarchy, providers as in RuleStates) | components other than the road geometry are told apart by a number; `Lane::Contains` is a parameter |
| Closest | `geometry_base/strategy_base.cc`, `brute_force_strategy.cc`, `brute_force_find_road_positions_strategy.cc`, `kd_tree_strategy.cc`, in binary64 | `Lane::ToLanePosition` and `Lane::lane_bounds` are parameters; sampled points are given |
| Vectors, MatFloat | `math/vector.cc`, `math/matrix.cc`, in binary64 | `std::stod` and `operator<<` of doubles are parameters; assignment; `operator<<` of matrices |
| FixedText | `utility/string_format.cc`, `FormatMaterial` and the materials of `utility/generate_obj.cc` | `operator<<` with `std::fixed` is written out as glibc documents it, rounding to nearest, ties to even; signs of NaN; how the precision is computed |

Not modelled: the other parts of `drake/` (leaf systems, contexts, other integrators),
`test_utilities/`,
the file output of `generate_obj.cc` and `generate_urdf`.

## Trusted base

* Coq 8.16.1's kernel, including `vm_compute` (used for concrete witnesses).
* The axioms listed below.  They all come from Coq's standard library, and only theorems
  about real numbers need any; no axiom, parameter or open hypothesis is added by this
  development.
* The statements in `*_Props.v` and the definitions they use in `*_Spec.v`.
* The faithfulness of `*_Model.v` to the cited lines, with the simplifications above.

## Assumptions per theorem

As printed by `Print Assumptions`.

### No assumptions (`Closed under the global context`)

* `Closest_Props.v`: `fcloser_strict`, `fcloser_distance`, `fcloser_nan`, `find_positions_rounded`, `to_road_position_rounded`, `to_road_position_hint_rounded`, `to_road_position_finite_refuted`
* `Closest_Props2.v`: `kd_find_rounded`, `kd_to_road_position_rounded`, `kd_refuses_nan`, `kd_find_negative_refuted`
* `Compare_Props.v`: `collector_counts`, `zones_compared`, `speed_limits_compared`, `direction_usages_compared`, `right_of_way_results_compared`, `next_phases_compared`, `traffic_lights_compared`, `range_rules_compared`, `discrete_rules_compared_partial`, `right_of_way_rules_compared_partial`, `phases_compared_partial`, `rule_states_compared_refuted`, `discrete_value_compared_refuted`, `discrete_values_compared_refuted`, `bulb_groups_compared_refuted`, `double_compared_refuted`, `comparisons_return`, `comparisons_symmetric`, `comparisons_reflexive`, `lane_ends_compared`, `optional_comparison_refuted`, `phase_comparison_refuted`, `lane_end_null_refuted`, `closeness_exact`, `closeness_symmetric_double`, `nan_close_refuted`, `compare_vectors_symmetric`, `compare_vectors_reflexive`, `compare_vectors_special`, `compare_relative_refuted`, `id_indexing_checked_partial`, `id_indexing_refuted`
* `Confluent_Props.v`: `find_confluent_segments_reachable`, `find_confluent_segments_component`, `analyze_confluent_segments_partition`, `analyze_confluent_segments_coverage_refuted`
* `Doubles_Props.v`: `lane_contains_rounded`, `lane_contains_nan`, `exact_membership_refuted`, `contains_answers_refuted`, `box_built`, `box_contains_rounded`, `box_disjoint_exact`, `box_contained_exact`, `box_intersection_exact`
* `Doubles_Props2.v`: `validator_rounded`, `validator_rejects_nan`, `open_range_refuted`, `clamp_defined_refuted`, `ranges_rounded`, `range_self`, `ranges_exact`, `intersects_symmetric_refuted`
* `Doubles_Props3.v`: `sampling_loop_ends`, `sampling_loop_ends_refuted`, `sampling_step_zero`, `waypoints_rounded`
* `Files_Props.v`: `create_directories_partial`, `create_directories_defined`, `one_letter_directory_refuted`, `existing_directory_refuted`, `trailing_slash_refuted`, `append_extends`, `append_to_empty_refuted`
* `FixedText_Props.v`: `fixed_text_throws`, `fixed_text_nearest`, `fixed_text_words`, `fixed_text_order`, `fixed_text_same`, `fixed_text_exact`, `vertex_text_distance`, `normal_text_nonzero`, `material_throws`, `material_text`, `material_visible`, `fixed_text_zero_sign_refuted`, `material_visible_refuted`
* `Graph_Props.v`: `build_graph_returns`, `build_graph_incidence`, `build_graph_nodes_partial`, `build_graph_merge_refuted`, `build_graph_loop_refuted`, `find_node_at`, `find_all_edge_sequences`, `find_all_edge_sequences_degenerate`, `determine_edge_end`
* `Hierarchy_Props.v`: `branch_point_consistent`, `branch_point_add_ok_iff`, `branch_point_set_default_ok_iff`, `branch_point_add_effect`, `branch_point_set_default_effect`, `branch_point_back_pointer`, `branch_point_back_pointer_success`, `branch_point_back_pointer_refuted`, `hierarchy_any_order`, `hierarchy_add_succeeds`, `hierarchy_moved_iff`, `hierarchy_left_right`, `hierarchy_duplicate_id_refuted`, `id_index_first_added`, `id_index_add_throws_iff`, `id_index_walk`
* `Intersections_Props.v`: `intersection_book_lookup`, `intersection_book_defined`, `intersection_book_duplicate_refuted`, `intersection_find_by_rule`, `intersection_governs_iff_covers`, `intersection_find_no_phase_refuted`, `intersection_find_order_free`, `intersection_find_by_position`, `intersection_find_by_region`
* `KdFloat_Props.v`: `nearest_is_rounded_minimum`, `nearest_is_accurate`, `nearest_of_nan`, `nearest_refuses`, `nearest_is_exact_minimum_refuted`
* `KdRange_Props.v`: `range_search_rounded`, `range_search_accurate`, `region_refuses_nan`, `range_search_reports_contained_refuted`
* `KdTree_Props.v`: `box_ctor`, `box_contains_iff_inflated`, `box_get_intersection_exact`, `box_overlaps_exact`, `kd_tree_build`, `kd_tree_3d_build`, `kd_tree_empty_throws`, `kd_tree_nearest_point`, `kd_tree_nearest_point_rejects_tolerance`, `kd_tree_range_search`, `kd_tree_range_search_complete`, `kd_tree_range_search_band_refuted`
* `LaneDataFloat_Props.v`: `distance_is_nan`, `distance_to_itself_refuted`, `invariants_upside_down_refuted`
* `LaneSeqs_Props.v`: `find_lane_sequences_finds_exactly_the_paths`, `find_lane_sequences_no_repeats`, `find_lane_sequences_monotone`, `find_lane_sequences_no_repeats_refuted`, `u_turn_removal_is_a_filter`, `u_turn_removal_exact_partial`, `u_turn_kept_refuted`, `u_turn_free_dropped_refuted`, `derived_routes_follow_the_sequences`, `derived_routes_contiguous_partial`, `derived_routes_contiguous_refuted`, `derived_routes_traverse_refuted`
* `Loaders_Props.v`: `phase_ring_rule_states`, `phase_ring_defaults_refuted`, `phase_ring_defaults_partial`, `phase_ring_bulb_states`, `phase_ring_transitions`, `phase_ring_accepted`, `phase_ring_abort_only`, `phase_ring_abort_refuted`, `phase_ring_invalid_bulb_state_refuted`, `phase_ring_graph_refuted`, `bulb_made`, `traffic_light_book_loaded`, `traffic_light_book_never_aborts`, `traffic_light_book_good`, `traffic_light_book_round_trip`, `rule_registry_loaded`, `rule_registry_sound`, `rule_registry_never_aborts`, `unknown_attribute_refuted`
* `MatFloat_Props.v`: `matrix_transpose`, `matrix_product_transposed`, `matrix_product_columns`, `matrix_sums`, `matrix_identity`, `determinant_transposed_partial`, `determinant_transposed_refuted`, `inverse_nan_refuted`
* `Mesh_Props.v`: `mesh_operations_succeed`, `mesh_round_trip`, `mesh_indices_unique`, `mesh_indices_stable`, `mesh_vertices_were_given`, `obj_faces_refer_to_their_vertices`, `obj_faces_have_their_material`
* `Network_Props.v`: `network_built`, `network_built_deprecated`, `network_contains_lane`, `network_contains_position_refuted`, `light_book_finds`, `light_book_add_throws`, `light_book_lists`, `current_yield_group`, `current_yield_group_extends_rule`, `current_yield_group_of_rule_refuted`
* `Phases_Props.v`: `phase_ring_constructor`, `phase_ring_contents`, `phase_ring_bulbs_refuted`, `phase_ring_next_outside_refuted`, `constructed_rings_ok`, `ring_book_lookup_partial`, `ring_book_returns_partial`, `ring_book_add_refuted`, `phase_provider_step`, `phase_provider_last_written`, `default_phase_provider`, `phase_based_state`, `phased_discrete_state`, `phased_discrete_undefined_refuted`, `default_provider_state_refuted`
* `Plugins_Props.v`: `search_path_parts`, `suffix_of_path`, `files_listed`, `files_listing_throws`, `dotted_suffix_finds_nothing`, `suffix_finds_its_files_refuted`, `library_search`, `manager_constructed`, `manager_construction_outcome`, `add_plugin_replaces`, `plugins_listed`, `libraries_open`, `plugin_pointer_stable`, `plugin_pointer_valid_refuted`, `bad_library_skipped_refuted`, `first_loader`, `loader_settled`, `failed_search_retried`, `later_plugins_found_refuted`
* `Poly_Props.v`: `expressions_mean_arithmetic`, `like_monomials_combine`, `addition_refuted`, `constructor_value`, `constructor_good`, `constructor_merges_refuted`, `evaluate_multivariate`, `evaluate_partial`, `subs_renames`, `subs_combines_refuted`, `substitute_means`, `substitute_refuted`, `equal_same_value`, `equality_refuted`, `almost_equal_values`, `almost_equal_itself`, `factor_divides`, `variables_listed`, `affine_iff`, `slope_unique`, `evaluate_univariate`, `derivative_means`, `integral_means`, `integral_of_constant_throws`, `univariate_flag_refuted`, `coefficients_listed`, `from_coefficients`, `roots_vanish`, `names_round_trip`, `names_rejected`, `names_distinct`, `long_names_refuted`, `nul_name_refuted`
* `Positions_Props.v`: `find_road_positions_exact`, `find_road_positions_order`, `find_road_positions_once`, `find_road_positions_throws_iff`, `to_road_position_closest`, `to_road_position_hinted`, `to_road_position_throws_iff`, `to_road_position_closest_refuted`, `closer_strict`, `closer_distance`, `closer_tie`, `closer_transitive_refuted`, `kd_strategy_sampling`, `kd_find_road_positions_partial`, `kd_find_road_positions_all`, `kd_find_road_positions_complete_refuted`, `kd_find_road_positions_once_refuted`, `kd_to_road_position_partial`, `kd_to_road_position_closest`
* `Regions_Props.v`: `srange_ctor_valid`, `srange_intersects_iff_near`, `srange_intersects_negative_tolerance`, `srange_intersects_throws_iff`, `srange_intersects_symmetric`, `srange_intersects_direction_free`, `srange_intersects_widens_both_refuted`, `srange_contains_iff_within`, `srange_contains_negative_tolerance`, `srange_contains_throws_iff`, `srange_contains_order`, `srange_get_intersection_iff_intersects`, `srange_get_intersection_exact`, `srange_get_intersection_tolerant_partial`, `srange_get_intersection_order_refuted`, `srange_get_intersection_negative_refuted`, `lane_srange_get_intersection`, `lane_srange_intersects_iff`, `lane_sroute_intersects_partial`, `lane_sroute_intersects_sound`, `lane_sroute_intersects_symmetric_partial`, `lane_sroute_intersects_refuted`, `lane_sroute_length_additive`, `is_included_sound`, `is_included_complete_partial`, `is_included_order_refuted`, `is_included_throws_iff`
* `RoadMesh_Props.v`: `precise_mesh_tiles_partial`, `precise_mesh_tiles_constant`, `precise_mesh_tiles_refuted`, `optimized_mesh_covers`, `optimized_mesh_tiles_linear`, `optimized_mesh_tiles_refuted`, `stripes_follow_bounds`, `lane_arrows`, `arrow_drawn`, `lane_arrows_within_lane_refuted`, `grid_unit`
* `Route_Props.v`: `relation_unknown_iff_off_route`, `relation_follows_indices`, `relation_mirrored`, `relation_mirrored_between_phases`, `relation_mirror_refuted`, `coincident_equal_refuted`, `phase_constructor_guarantees`, `phase_right_to_left_refuted`, `route_constructor_connectivity_refuted`, `connected_sound`, `connected_complete_same_lane`, `connected_one_to_one_refuted`, `lane_s_route_on_route`, `lane_s_route_reaches_end`, `lane_s_route_begins_at_start_refuted`, `lane_s_route_off_route_throws`, `lane_s_route_terminates_refuted`, `find_phase_position_closest`, `find_route_position_closest`, `find_route_position_first_phase`, `find_phase_position_minimal_refuted`, `find_phase_position_range_refuted`
* `Router_Props.v`: `constraints_accepted_iff`, `compute_routes_throws`, `compute_routes_sound`, `compute_routes_filtered_partial`, `no_lane_switch_sound_refuted`, `no_lane_switch_complete_refuted`, `one_bad_route_throws_refuted`, `fork_without_route_refuted`, `segment_behind_refuted`, `compute_routes_same_node`, `router_made`
* `RuleLoaders_Props.v`: `rulebook_loaded`, `rulebook_never_aborts`, `rulebook_sound`, `rulebook_zone_refuted`, `rulebook_values_lost_refuted`, `rulebook_related_dropped_refuted`, `rulebook_values_contained_refuted`
* `RuleLoaders_Props2.v`: `old_rulebook_loaded`, `old_rulebook_never_aborts`, `old_rulebook_derived`, `old_rulebook_delimiter_refuted`, `old_rulebook_yield_refuted`, `combinations_exact`, `combinations_once`, `direction_usage_type_documented`, `right_of_way_type_documented_refuted`, `stop_type_documented_refuted`, `derived_values_registered_partial`, `derived_values_registered_refuted`, `direction_undefined_refuted`
* `RuleLoaders_Props3.v`: `old_rulebook_is_paired`, `old_ring_accepted`, `old_ring_phases`, `old_ring_transitions`, `old_ring_never_aborts`, `ring_loaders_disagree_refuted`, `intersections_loaded`, `intersections_provided`, `intersections_refused_provided`, `intersections_abort_only`, `intersections_refused_unchanged_refuted`, `intersections_initial_phase_refuted`
* `RuleStates_Props.v`: `discrete_state_accepted`, `manual_provider_step`, `manual_provider_last_set`, `manual_provider_valid`, `manual_provider_state_refuted`, `manual_provider_at_position`, `manual_provider_default`, `manual_right_of_way_provider`, `rule_state_eq_iff`, `rule_state_eq_reflexive`, `rule_state_eq_transitive`, `rule_state_eq_both_ways`, `rule_state_eq_symmetric_partial`, `rule_state_eq_symmetric_refuted`, `rule_constructors_order_free`, `discrete_rule_constructor`, `range_rule_constructor`, `range_less_strict_weak_order`, `range_less_iff`, `range_less_nan_refuted`, `registry_register`, `registry_possible_states`, `registry_once`, `registry_build_discrete`, `registry_build_range`, `filter_rules_conjunction`, `filter_rules_empty`
* `Rulebook_Props.v`: `rulebook_find_rules`, `rulebook_find_rules_no_throw`, `rulebook_find_rules_negative_throws`, `rulebook_refines_contents`, `rulebook_contents_unique`, `rulebook_get_rule_step`, `rulebook_add_ok_iff`, `rulebook_remove_rule_partial`, `rulebook_remove_repeated_lane_refuted`
* `Scalar_Props.v`: `range_validator_constructor`, `range_validator_clamps_partial`, `range_validator_relative_half`, `range_validator_inverted_clamp_refuted`, `saturate_clamps`, `double_comparisons_numeric`
* `Simplify_Props.v`: `douglas_peucker_keeps_shape`, `douglas_peucker_within_tolerance_partial`, `douglas_peucker_closed_refuted`, `douglas_peucker_segment_refuted`, `douglas_peucker_minimal_refuted`, `simplify_partitions_faces`, `simplify_rejects_repeated_edges`, `simplify_closed_group_refuted`, `simplify_hole_refuted`, `simplify_degenerate_face_refuted`, `simplify_scaled_tolerance_refuted`
* `Texts_Props.v`: `text_shows`, `text_tells`, `text_tells_tree`, `text_tells_any_id_refuted`, `text_tells_long_id_refuted`, `details_shown_refuted`, `graph_drawn`, `route_drawn`, `drawing_tells`, `drawing_tells_red_refuted`, `log_delivers`, `log_safe`, `level_named`, `level_restored`, `documented_levels_refuted`, `default_sink_blank_line`
* `ThreadPool_Props.v`: `pool_fifo`, `pool_at_most_once`, `finish_runs_everything`, `no_lost_wake_up`, `finished_pool_accepts_nothing`, `finish_terminates`, `finish_without_start_blocks`, `never_started_destructor_refuted`
* `Tracker_Props.v`: `note_value_change_invalidates`, `note_value_change_once`, `repeated_event_ignored`, `built_graphs_consistent`, `unsubscribe_removes_one`, `cached_values_current`, `cached_evaluation_returns`, `evaluation_effects`
* `Traj_Props.v`: `time_in_range`, `segment_found`, `evaluation`, `scalar_value`, `scalar_value_refuted`, `vector_values_listed`, `derivative_trajectory`, `integral_trajectory`, `integral_of_derivative_refuted`, `shift_right`, `scale_time`, `scale_time_rejects`, `reverse_time`, `slice_values`, `slice_rejects`, `empty_slice_refuted`, `concatenate_values`, `concatenate_rejects`, `concatenate_tolerance_refuted`, `append_cubic_values`, `append_linear_values`, `append_spacing_refuted`, `remove_final_values`, `remove_only_refuted`
* `Traj_Props2.v`: `add_values`, `sub_values`, `mul_values`, `coefficient_wise_product_refuted`, `operators_reject`, `operator_sizes_refuted`, `offset_values`, `opposite_values`, `block_values`, `block_rejects`, `reshape_values`, `reshape_rejects`, `set_block`, `approx_itself`, `approx_means`, `constructor_accepts`
* `Traj_Props3.v`: `zero_order_hold`, `first_order_hold`, `cubic_hermite`, `shape_preserving`, `shape_preserving_refuted`, `clamped_spline`, `clamped_solvable`, `free_spline`, `free_solvable`, `lagrange_interpolates`, `lagrange_solvable`, `samples_rejected`
* `UniqueId_Props.v`: `unique_id_strings_refuted`, `unique_bulb_strings`, `unique_group_strings`, `unique_id_equality`, `unique_id_order`
* `Validator_Props.v`: `validate_ok_iff`, `hierarchy_check_iff`, `branch_point_ends_near`, `validate_null_refuted`, `validate_coverage_refuted`, `validate_zones_refuted`, `validate_light_refuted`, `validate_phase_state_refuted`, `validate_branch_point_refuted`
* `Vectors_Props.v`: `vector_operands_commute`, `vector_equality`, `vector_difference_zero`, `vector_neutral`, `dot_unit`, `norm_number`, `cross_antisymmetric`, `cross_itself`, `vector_access`, `normalized_unit_refuted`, `infinite_difference_refuted`
* `Vectors_Props2.v`: `from_str_reads`, `from_str_dimension`, `from_str_to_str`, `from_str_format_refuted`
* `Waypoints_Props.v`: `sample_waypoints_outcome`, `sample_waypoints_even`, `sample_waypoints_backwards_refuted`, `sample_waypoints_empty_refuted`

### Assuming `ClassicalDedekindReals.sig_forall_dec`, `FunctionalExtensionality.functional_extensionality_dep`

* `Box_Props.v`: `make_box_accepts`
* `Fresnel_Props.v`: `spiral_heading_rate`
* `Integ_Props5.v`: `initialize_accepts`, `initialize_chooses`, `initialize_again_refuted`, `segment_appended`
* `Matrix_Props.v`: `determinant_volume`, `volume_form_unique`, `determinant_product`, `determinant_transposed`, `product_composes`, `inverse_undoes`, `inverse_only`, `inverse_solves`, `inverse_throws_iff`, `no_inverse_throws`, `invertible_matrix_refuted`
* `Quaternion_Props.v`: `transform_rotation`, `transform_composes`, `inverse_undoes_rotation`, `inverse_of_quaternion`, `product_associative`

### Assuming `ClassicalDedekindReals.sig_forall_dec`, `ClassicalDedekindReals.sig_not_dec`, `FunctionalExtensionality.functional_extensionality_dep`

* `Box_Props.v`: `box_contains_iff`, `box_vertices_hull`, `box_contained_iff`, `overlaps_contained_iff`, `overlaps_aligned_partial`, `overlap_missed_refuted`, `overlap_invented_refuted`, `box_orientation_refuted`, `box_tolerance_refuted`
* `Box_Props2.v`: `overlaps_one_turn_partial`, `overlap_columns_refuted`
* `Fresnel_Props.v`: `fresnel_odd`
* `LaneData_Props.v`: `orientation_rotates`, `orientation_of_rpy`, `reverse_turns`, `position_distance_metric`
* `Quaternion2_Props.v`: `two_vectors_partial`, `two_vectors_opposite_partial`, `two_vectors_down_refuted`, `two_vectors_small_refuted`, `angle_axis_turns`, `angle_axis_tiny`, `is_approx_symmetric`
* `Quaternion_Props.v`: `transform_length`, `norm_of_product`, `unit_matrix_transforms`, `rotation_matrix_transforms`, `rotation_matrix_rotates`, `transform_non_unit_refuted`, `quaternion_of_rotation`, `same_rotation_iff`
* `RollPitchYaw_Props.v`: `rpy_matrix_product`, `rpy_matrix_rotates`, `rpy_quaternion`, `rpy_matrix_derivative`

### Assuming `ClassicalDedekindReals.sig_forall_dec`, `ClassicalDedekindReals.sig_not_dec`, `Classical_Prop.classic`, `FunctionalExtensionality.functional_extensionality_dep`

* `Fresnel_Props.v`: `fresnel_integrals_exist`, `fresnel_accurate`, `fresnel_accurate_far`, `fresnel_total`, `fresnel_nearby`, `fresnel_accurate_everywhere_refuted`, `fresnel_nearby_everywhere_refuted`, `spiral_tangent`, `spiral_followed`
* `Integ_Props.v`: `solve_steps`, `no_further_stops_at_events`, `no_further_past_events`, `accuracy_met_or_throws_refuted`, `solve_refuses`, `solve_at_initial_time`, `solve_quadrature`, `solve_linear_invariant`, `solve_restart`, `solve_repeatable_refuted`, `solve_again_after_exception_refuted`
* `Integ_Props2.v`: `solve_ends`, `quadrature_ends`, `solve_outcome_unique`, `solve_nan_never_ends`, `zero_steps_never_end`, `minimum_step_kept_refuted`
* `Integ_Props3.v`: `dense_solve_interpolates`, `dense_solve_agrees`, `dense_solve_quadratic`, `dense_solve_empty_throws`
* `Integ_Props4.v`: `arc_length_evaluate`, `arc_length_total`, `integrators_at_start`, `inverse_at_start`, `integrators_refuse`, `inverse_evaluate_bounds`, `round_trip`, `functor_evaluates`, `integral_function_quadratic`, `inverse_epsilon`, `integral_from_p0_refuted`, `image_lower_bound_refuted`
* `LaneData_Props.v`: `distance_of_axes`, `rotation_distance_metric`, `distance_reversed`, `distance_against_angle`, `headings_together`
* `Quaternion2_Props.v`: `slerp_unit`, `slerp_nearly_unit`, `angular_distance_largest_angle`, `angular_distance_metric`
* `RollPitchYaw_Props.v`: `rpy_ranges`, `rpy_from_quaternion_exact`, `rpy_from_quaternion_close`, `rpy_round_trip`
