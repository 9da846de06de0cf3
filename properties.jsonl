{"id": "C01", "title": "SRange::Intersects decides overlap of two s-intervals", "statement": "For constructed SRanges and tolerance >= 0, Intersects(other,tol) is true exactly when some s of one (undirected) interval lies within tol of some s of the other, the answer does not depend on which range is the receiver nor on the direction (s0<s1 or s0>s1) of either range; for tolerance < 0 the call throws exactly when |tol| exceeds half of the smaller size.", "quantifier": "all pairs of SRanges with non-negative ends (either direction) and all tolerances", "why_tests_cant": "The domain is a 5-dimensional continuum with sign/direction/touching cases; tests sample a handful of corner pairs.", "anchors": ["src/maliput/api/regions.cc: SRange::Intersects", "include/maliput/api/regions.h: SRange"]}
{"id": "C02", "title": "SRange::Contains decides inclusion up to tolerance", "statement": "For constructed SRanges and tolerance >= 0, Contains(other,tol) is true exactly when every s of other lies within tol of the receiver interval, regardless of the direction of either range; containment at tolerance 0 is reflexive and transitive and implies Intersects at the same tolerance.", "quantifier": "all pairs/triples of SRanges and all tolerances", "why_tests_cant": "Universal statement over reals and both travel directions.", "anchors": ["src/maliput/api/regions.cc: SRange::Contains"]}
{"id": "C03", "title": "SRange::GetIntersection returns the common interval", "statement": "GetIntersection(other,tol) returns a value exactly when Intersects(other,tol); at tol = 0 the value is exactly the set of s common to both ranges; for tol > 0 the documented contract asks for a range (min <= max) inside both widened ranges.", "quantifier": "all pairs of SRanges and all tolerances", "why_tests_cant": "The failing region (ranges separated by a gap smaller than tol) is a thin subset not hit by example tests.", "anchors": ["src/maliput/api/regions.cc: SRange::GetIntersection"]}
{"id": "C04", "title": "LaneSRoute::Intersects detects every overlap", "statement": "A.Intersects(B,tol) is true exactly when some LaneSRange of A and some LaneSRange of B are on the same lane and intersect within tol, and the relation is symmetric.", "quantifier": "all routes of any length, including routes visiting a lane more than once", "why_tests_cant": "Depends on arbitrary-length lists with repeated lanes; the code looks only at the first range of the same lane.", "anchors": ["src/maliput/api/regions.cc: LaneSRoute::Intersects"]}
{"id": "C05", "title": "IsIncluded is a union over the given ranges", "statement": "IsIncluded(position, ranges, rg) is true exactly when for some given range the position is within linear tolerance of the lane and its s coordinate is within tolerance of the range; the order of the ranges does not matter.", "quantifier": "all lists of ranges, all backends (ToLanePosition oracle), all positions", "why_tests_cant": "Order- and duplicate-dependence only shows for particular list shapes; the backend is arbitrary.", "anchors": ["src/maliput/api/regions.cc: IsIncluded", "src/maliput/base/intersection.cc"]}
{"id": "C06", "title": "AxisAlignedBox::Overlaps/GetIntersection have set semantics", "statement": "GetIntersection returns a box exactly when the two closed boxes share a point, and the returned box is precisely the set of common points; Overlaps is kDisjointed exactly when no common point exists, kContained exactly when every point of the other box is inside the tolerance-inflated receiver, kIntersected otherwise.", "quantifier": "all pairs of boxes, including infinite corners, and all tolerances", "why_tests_cant": "Continuum of configurations, infinite corners included.", "anchors": ["src/maliput/math/axis_aligned_box.cc: AxisAlignedBox"]}
{"id": "C07", "title": "KD-tree construction is total and well ordered", "statement": "Building a KDTree3D from any non-empty collection terminates without throwing, holds exactly the given points with multiplicity, every point left (right) of a node is <= (>=) that node in the node's splitting coordinate, and every node's region contains all points of its subtree; region initialisation never throws.", "quantifier": "all non-empty point collections of any size (duplicates included) and every legal outcome of std::nth_element", "why_tests_cant": "All sizes and all permitted behaviours of nth_element.", "anchors": ["include/maliput/math/kd_tree.h: MakeKdTree, Initialize3dRegions, KDTreeBase"]}
{"id": "C08", "title": "KDTree::nearest_point returns a closest point", "statement": "nearest_point(q,tol) returns one of the stored points p such that either its squared distance to q is minimal among all stored points or it is < tol.", "quantifier": "all trees of any size, all query points, all positive tolerances", "why_tests_cant": "Branch-and-bound correctness over all trees and queries; a wrong pruning rule fails only for rare geometry.", "anchors": ["include/maliput/math/kd_tree.h: KDTreeBase::nearest_point"]}
{"id": "C09", "title": "KDTree3D::RangeSearch returns exactly the points inside the box", "statement": "RangeSearch(box) returns, without duplicates, every stored point inside the closed box and only stored points accepted by box.Contains.", "quantifier": "all trees of any size, all boxes and tolerances", "why_tests_cant": "Needs all tree shapes; the tolerance band is of width 1e-14.", "anchors": ["include/maliput/math/kd_tree.h: KDTree3D::RangeSearch"]}
{"id": "C10", "title": "FindRoadPositions (brute force) is exact", "statement": "FindRoadPositions(p,r) reports exactly one result per lane of the road geometry whose ToLanePosition distance is <= r (all lanes for r = infinity) and each result is that lane's own ToLanePosition answer.", "quantifier": "all road geometries (any number of lanes), positions and radii", "why_tests_cant": "Quantifies over arbitrary road networks and backends.", "anchors": ["src/maliput/geometry_base/brute_force_find_road_positions_strategy.cc", "src/maliput/geometry_base/brute_force_strategy.cc: DoFindRoadPositions"]}
{"id": "C11", "title": "ToRoadPosition returns a closest road position", "statement": "ToRoadPosition without hint returns a result of some lane of the road geometry whose distance exceeds the minimum over all lanes by no more than a bound stated in terms of the comparison tolerance 1e-12; when the position lies on some lane volume (distance within tolerance) the result's distance is within that tolerance as well.", "quantifier": "all road geometries with at least one lane and all positions", "why_tests_cant": "The tie-breaking comparison is not transitive, so error accumulates with the number of lanes.", "anchors": ["src/maliput/geometry_base/brute_force_strategy.cc: DoToRoadPosition", "src/maliput/geometry_base/strategy_base.cc: IsNewRoadPositionResultCloser"]}
{"id": "C12", "title": "IsNewRoadPositionResultCloser is an asymmetric preference", "statement": "The comparison used to select positions is irreflexive and asymmetric, always prefers a strictly closer (by more than 1e-12) result and never replaces a result by one that is 1e-12 or more farther.", "quantifier": "all pairs of road position results", "why_tests_cant": "Comparator laws over reals.", "anchors": ["src/maliput/geometry_base/strategy_base.cc: IsNewRoadPositionResultCloser"]}
{"id": "C13", "title": "KDTreeStrategy::FindRoadPositions agrees with brute force", "statement": "For a road geometry initialised with the KD-tree strategy, FindRoadPositions(p,r) reports every lane with a sampled point in the search box whose ToLanePosition distance is <= r, reports only such lanes, and reports each lane once.", "quantifier": "all road geometries, sampling steps and radii", "why_tests_cant": "Arbitrary sampling density and lane counts.", "anchors": ["src/maliput/geometry_base/kd_tree_strategy.cc"]}
{"id": "C14", "title": "BranchPoint sides stay consistent", "statement": "After any sequence of AddABranch/AddBBranch/SetDefault calls that succeed, each added lane end is on exactly one side; its confluent set is the side it is on and its ongoing set the opposite side; a default branch of an end is always an ongoing end of it; every lane end's lane points back to this branch point.", "quantifier": "all histories of branch point operations, including failing ones", "why_tests_cant": "Histories are unbounded and exceptions may leave partial updates.", "anchors": ["src/maliput/geometry_base/branch_point.cc", "include/maliput/geometry_base/lane_end_set.h"]}
{"id": "C15", "title": "Entity index is complete regardless of construction order", "statement": "Whatever the order in which lanes are added to segments, segments to junctions and junctions to the road geometry, once everything is attached each contained lane, segment, junction and branch point is found by ById() under its id, back-pointers are right, lane indices equal their position and to_left/to_right are mutually inverse.", "quantifier": "all interleavings of AddLane/AddSegment/AddJunction/AddBranchPoint on all structures with distinct ids", "why_tests_cant": "Exponentially many construction orders; callbacks index late additions.", "anchors": ["src/maliput/geometry_base/{segment,junction,road_geometry,lane}.cc", "src/maliput/api/basic_id_index.cc"]}
{"id": "C16", "title": "BasicIdIndex refines a map with unique keys", "statement": "After any sequence of Add* calls, Get*(id) returns the entity first added with that id and nullptr for ids never added; adding an id twice throws.", "quantifier": "all histories of index operations", "why_tests_cant": "Unbounded histories.", "anchors": ["src/maliput/api/basic_id_index.cc"]}
{"id": "C17", "title": "FindConfluentSegments computes a connected component", "statement": "FindConfluentSegments(seed) terminates and returns exactly the segments reachable from seed by steps between confluent lanes (and seed itself, provided some lane of seed is confluent with itself).", "quantifier": "all finite road geometries and seeds", "why_tests_cant": "Graph reachability on arbitrary graphs, termination included.", "anchors": ["src/maliput/utility/segment_analysis.cc: FindConfluentSegments"]}
{"id": "C18", "title": "AnalyzeConfluentSegments partitions the segments", "statement": "AnalyzeConfluentSegments returns pairwise disjoint sets that together hold every segment of the road geometry, two segments being in the same set exactly when they are connected by confluent lanes.", "quantifier": "all finite road geometries with a symmetric confluence relation", "why_tests_cant": "Graph partition on arbitrary graphs.", "anchors": ["src/maliput/utility/segment_analysis.cc: AnalyzeConfluentSegments"]}
{"id": "C19", "title": "SampleAheadWaypoints samples a route evenly", "statement": "For routes whose ranges go with s, SampleAheadWaypoints terminates, the first waypoint is the route start, consecutive waypoints are exactly the (clamped) sampling rate apart in route arc length across lane borders, and the last waypoint is the route end or within linear tolerance of it.", "quantifier": "all non-empty routes of any number of ranges and all positive rates", "why_tests_cant": "Accumulated offsets across arbitrary many ranges, including ranges shorter than the step.", "anchors": ["src/maliput/api/road_geometry.cc: RoadGeometry::DoSampleAheadWaypoints"]}
{"id": "C20", "title": "RangeValidator clamps into the open range or throws", "statement": "For every constructed RangeValidator and every s: the call throws exactly when s is outside [min-tol, max+tol]; otherwise the returned value is in [min+eps, max-eps], equals s when s already is in that interval and is the nearest point of it otherwise; the clamp is never called with an inverted interval.", "quantifier": "all constructor arguments accepted by the factory functions and all s", "why_tests_cant": "Acceptance region of the constructor is a 4-parameter continuum; the inverted interval needs eps > half the range.", "anchors": ["src/maliput/common/range_validator.cc"]}
{"id": "C21", "title": "saturate clamps", "statement": "saturate(x,min,max) throws exactly when not min <= max; otherwise the result lies in [min,max] and is the closest such number to x (NaN is returned for NaN x).", "quantifier": "all IEEE doubles including NaN and infinities", "why_tests_cant": "2^192 inputs.", "anchors": ["src/maliput/math/saturate.cc"]}
{"id": "C22", "title": "ManualRulebook FindRules answers by zone intersection", "statement": "After any history of AddRule/RemoveRule/RemoveAll, FindRules(ranges,tol) returns exactly the present rules having a zone range that intersects one of the queried ranges within tol.", "quantifier": "all histories of rulebook operations and all queries", "why_tests_cant": "The interval index must stay in step with the rule maps after arbitrary histories.", "anchors": ["src/maliput/base/manual_rulebook.cc: ManualRulebook::Impl, LaneSRangeRuleIndex"]}
{"id": "C23", "title": "ManualRulebook GetRule refines a map", "statement": "GetRule(id) after any history returns the rule last added under id and not removed since, and throws for absent ids; Rules() lists exactly the present rules; adding a present id throws and changes nothing.", "quantifier": "all histories", "why_tests_cant": "Unbounded histories; exceptions in the middle of an update.", "anchors": ["src/maliput/base/manual_rulebook.cc"]}
{"id": "C24", "title": "ManualRulebook RemoveRule removes any present rule", "statement": "RemoveRule(id) on a present rule succeeds, and afterwards neither GetRule nor FindRules reports the rule; other rules are unaffected.", "quantifier": "all rules (zones of any shape, lanes possibly repeated) in all reachable rulebooks", "why_tests_cant": "Zones that visit a lane twice are legal but uncommon.", "anchors": ["src/maliput/base/manual_rulebook.cc: RemoveRule, RemoveRanges"]}
{"id": "C25", "title": "PhaseRing covers the same rules in every phase", "statement": "A PhaseRing can only be constructed when all phases govern the same right-of-way and discrete rules and (when given) the same bulbs; next_phases has exactly the phases as keys; construction never has undefined behaviour.", "quantifier": "all vectors of phases and next-phase maps", "why_tests_cant": "Arbitrary sizes, and a missing optional in one phase only.", "anchors": ["src/maliput/api/rules/phase_ring.cc"]}
{"id": "C26", "title": "ManualPhaseRingBook indexes rules to rings", "statement": "After any history of AddPhaseRing/RemovePhaseRing, FindPhaseRing(rule) returns the unique present ring that includes the rule or nullopt, GetPhaseRing/GetPhaseRings report exactly the present rings; a failed AddPhaseRing leaves the book unchanged.", "quantifier": "all histories including failing additions", "why_tests_cant": "Atomicity after exceptions over unbounded histories.", "anchors": ["src/maliput/base/manual_phase_ring_book.cc"]}
{"id": "C27", "title": "ManualPhaseProvider refines a map", "statement": "GetPhase(ring) returns the phase last set for the ring with its next phase and duration, nullopt if none; AddPhaseRing twice throws; SetPhase of an unknown ring throws; a duration without a next phase throws.", "quantifier": "all histories", "why_tests_cant": "Unbounded histories.", "anchors": ["src/maliput/base/manual_phase_provider.cc"]}
{"id": "C28", "title": "Phase-driven rule state providers agree with the current phase", "statement": "GetState(rule) of the phase based providers is defined exactly when the rule's ring exists in the book and has a current phase, the state is the one the current phase assigns to the rule, and the next state (if any) is the one assigned by the next phase with the provider's duration.", "quantifier": "all books, providers and histories of phase changes", "why_tests_cant": "Composition of three stateful components over all histories.", "anchors": ["src/maliput/base/phased_discrete_rule_state_provider.cc", "src/maliput/base/phase_based_right_of_way_rule_state_provider.cc"]}
{"id": "C29", "title": "Manual state providers only hold valid states", "statement": "After any history, any state (or next state) returned by GetState for a discrete/range rule is one of the rule's states, durations are positive and only present with a next state; GetState returns the last successfully set state; failing SetState leaves the provider unchanged.", "quantifier": "all histories of SetState calls and all rulebooks", "why_tests_cant": "Unbounded histories with failures.", "anchors": ["src/maliput/base/manual_discrete_value_rule_state_provider.cc", "src/maliput/base/manual_range_value_rule_state_provider.cc"]}
{"id": "C30", "title": "Rule::State equality is an equivalence", "statement": "operator== on rule states (hence on DiscreteValue and Range) is reflexive, symmetric and transitive, so duplicate detection in rule constructors is order independent.", "quantifier": "all rule states with arbitrary related rules / unique ids maps", "why_tests_cant": "Needs maps where one is a strict submap of the other.", "anchors": ["src/maliput/api/rules/rule.cc: Rule::State::operator=="]}
{"id": "C31", "title": "RangeValueRule::Range operator< is a strict weak order", "statement": "operator< on ranges is irreflexive, asymmetric, transitive and incomparability is transitive.", "quantifier": "all ranges", "why_tests_cant": "Comparator laws over all triples.", "anchors": ["src/maliput/api/rules/range_value_rule.cc"]}
{"id": "C32", "title": "RuleRegistry builds only registered states", "statement": "BuildDiscreteValueRule/BuildRangeValueRule succeed only for registered types with every state among the registered values (ranges: registered severity/description/min/max), a type id is registered at most once and as one kind only, and GetPossibleStatesOfRuleType reports what was registered.", "quantifier": "all histories of registrations and builds", "why_tests_cant": "Unbounded histories.", "anchors": ["src/maliput/api/rules/rule_registry.cc"]}
{"id": "C33", "title": "FilterRules is the conjunction of its filters", "statement": "FilterRules(results, filters) keeps exactly the rules accepted by every filter of their kind, preserving ids; empty filters keep everything.", "quantifier": "all rule sets and filter lists", "why_tests_cant": "Arbitrary predicates and sizes.", "anchors": ["src/maliput/base/rule_filter.cc"]}
{"id": "C34", "title": "IntersectionBook lookups agree with its contents", "statement": "After any history of AddIntersection, GetIntersection(id) and FindIntersection(traffic light / rule / position) return an intersection that was added and includes the key, and return null only when none does; duplicates are rejected without undefined behaviour.", "quantifier": "all histories", "why_tests_cant": "Unbounded histories, exception path.", "anchors": ["src/maliput/base/intersection_book.cc", "src/maliput/api/intersection.cc"]}
{"id": "C35", "title": "Routing graph edges match segment connectivity", "statement": "BuildGraph yields one edge per segment; each edge's two nodes are the nodes holding all branch points of its lanes' ends; every branch point of the road geometry belongs to exactly one node.", "quantifier": "all road geometries", "why_tests_cant": "Arbitrary road networks; node merging order.", "anchors": ["src/maliput/routing/graph/graph.cc"]}
{"id": "C36", "title": "FindAllEdgeSequences enumerates simple drivable paths", "statement": "FindAllEdgeSequences(graph,start,end) terminates and returns exactly the edge sequences that connect start to end, visit no node twice and are drivable.", "quantifier": "all finite graphs and node pairs", "why_tests_cant": "Path enumeration over all graphs.", "anchors": ["src/maliput/routing/graph/graph_utils.cc"]}
{"id": "C37", "title": "FindLaneSequences returns exactly the simple lane paths", "statement": "FindLaneSequences(start,end,max_length,remove_u_turns) terminates and returns exactly the sequences of distinct lanes from start to end in which each lane is an ongoing branch of its predecessor and the intermediate lanes' total length does not exceed max_length.", "quantifier": "all finite lane graphs", "why_tests_cant": "Soundness and completeness of a recursive search on all graphs.", "anchors": ["src/maliput/routing/find_lane_sequences.cc"]}
{"id": "C38", "title": "U-turn removal removes exactly the U-turns", "statement": "With remove_u_turns no returned sequence enters and leaves a lane through the same end, and no U-turn free sequence is dropped.", "quantifier": "all lane graphs, including lanes connected at both ends", "why_tests_cant": "Needs lanes connected at both ends (loops).", "anchors": ["src/maliput/routing/find_lane_sequences.cc: HasUTurn, RemoveUTurns"]}
{"id": "C39", "title": "DeriveLaneSRoutes yields contiguous routes", "statement": "Every route returned by DeriveLaneSRoutes(start,end,max_length) begins at start, ends at end, traverses intermediate lanes entirely, and consecutive ranges meet at a common branch point.", "quantifier": "all lane graphs, start and end positions", "why_tests_cant": "Arbitrary lane graphs and travel directions.", "anchors": ["src/maliput/routing/derive_lane_s_routes.cc"]}
{"id": "C40", "title": "Route lane relations are complete and mutually inverse", "statement": "ComputeLaneSRangeRelation(a,b) classifies every pair: left/right relations are mirror images, preceding/succeeding are mirror images, coincident iff equal, unrelated iff more than one phase apart or absent.", "quantifier": "all routes and pairs of ranges", "why_tests_cant": "All route shapes and index pairs.", "anchors": ["src/maliput/routing/route.cc: ComputeLaneSRangeRelation"]}
{"id": "C41", "title": "Route construction guarantees end-to-end connectivity", "statement": "A Route can only be constructed from phases such that each phase is connected to the next one, and ComputeLaneSRoute from an on-route position terminates, never leaves the route, and ends at the route's end.", "quantifier": "all routes and start positions", "why_tests_cant": "Loops with index budgets over arbitrary routes.", "anchors": ["src/maliput/routing/route.cc: ComputeLaneSRoute, ValidateEndToEndConnectivity"]}
{"id": "C42", "title": "FindRoutePosition / FindPhasePosition return a closest position", "statement": "FindPhasePosition(inertial) and FindRoutePosition(inertial) return a position of one of the phase's (route's) ranges whose distance is minimal up to the comparison tolerance.", "quantifier": "all phases/routes and positions", "why_tests_cant": "Fold with a non-transitive comparator over arbitrary lists.", "anchors": ["src/maliput/routing/phase.cc", "src/maliput/routing/route.cc"]}
{"id": "C43", "title": "Routing constraints are honoured", "statement": "Router::ComputeRoutes returns only routes that satisfy the given constraints (lane switches, phase and route cost/length limits) and drops no satisfying route; ordering of routes is preserved by filtering.", "quantifier": "all route lists and constraints", "why_tests_cant": "Arbitrary lists.", "anchors": ["src/maliput/base/distance_router.cc: FilterRoutes", "src/maliput/routing/routing_constraints.cc"]}
{"id": "C44", "title": "ThreadPool runs every queued task exactly once", "statement": "In every schedule, each task queued before Finish returns is executed at most once, tasks start in FIFO order, and when Finish returns all queued tasks have been executed; no worker sleeps forever while work is pending (no lost wake-up).", "quantifier": "all numbers of workers and tasks and all interleavings", "why_tests_cant": "Schedules cannot be enumerated by tests.", "anchors": ["src/maliput/utility/thread_pool.cc", "include/maliput/utility/thread_pool.h"]}
{"id": "C45", "title": "ThreadPool shutdown terminates", "statement": "Finish returns in every fair schedule for every started pool; a pool that was never started is destroyed without blocking.", "quantifier": "all schedules and pool states", "why_tests_cant": "Liveness over schedules.", "anchors": ["src/maliput/utility/thread_pool.cc: Finish, ~ThreadPool"]}
{"id": "C46", "title": "GeoMesh face round trip", "statement": "After any sequence of PushFace/AddFacesFrom, resolving the stored index faces gives back the pushed faces in order (up to the declared vertex/normal equality); equal vertices share an index, indices are stable and in range.", "quantifier": "all face lists of any size", "why_tests_cant": "Deduplication over arbitrary histories.", "anchors": ["include/maliput/utility/mesh.h: GeoMesh, UniqueIndexer"]}
{"id": "C47", "title": "EmitObj index offsets chain across meshes", "statement": "Writing meshes one after the other with the returned offsets, each emitted face line refers to exactly the vertex and normal lines emitted for that mesh.", "quantifier": "all lists of meshes", "why_tests_cant": "Arbitrary numbers of meshes and vertices.", "anchors": ["include/maliput/utility/mesh.h: GeoMesh::EmitObj"]}
{"id": "C48", "title": "Douglas-Peucker simplification keeps the polyline within tolerance", "statement": "ApplyDouglasPeuckerSimplification outputs a subsequence of the input with both endpoints, and each dropped vertex is within tolerance of the line through the kept vertices before and after it.", "quantifier": "all polylines and tolerances", "why_tests_cant": "Recursive algorithm on arbitrary sequences.", "anchors": ["include/maliput/utility/mesh_simplification.h: ApplyDouglasPeuckerSimplification"]}
{"id": "C49", "title": "Mesh simplification partitions the faces", "statement": "SimplifyMeshFaces assigns each input face to exactly one merged face; merged faces are edge-connected sets of faces coplanar (within tolerance) with the seed face; the contour traversal terminates.", "quantifier": "all meshes accepted by the edge map", "why_tests_cant": "Graph traversals on arbitrary meshes.", "anchors": ["src/maliput/utility/mesh_simplification.cc"]}
{"id": "C50", "title": "Precise road mesh tiles the lane surface", "statement": "GeneratePreciseRoadMesh terminates and its quads tile the whole (s,r) domain between the lane (segment) bounds.", "quantifier": "all lanes, grid units and bounds", "why_tests_cant": "Continuum of bounds.", "anchors": ["src/maliput/utility/generate_obj.cc: GeneratePreciseRoadMesh"]}
{"id": "C51", "title": "Change notification invalidates all dependents", "statement": "After NoteValueChange with a fresh change event, every cache entry that transitively depends on the changed value is out of date, entries not depending on it keep their status, and the notification terminates even on cyclic dependency graphs.", "quantifier": "all finite dependency graphs and all histories of change events and evaluations", "why_tests_cant": "Graph traversal with short circuit over all histories.", "anchors": ["src/maliput/drake/systems/framework/dependency_tracker.cc"]}
{"id": "C52", "title": "Cached evaluation never serves stale values", "statement": "With caching enabled, evaluating a cache entry returns the value its calculator gives on the current source values, after any history of changes (each with a fresh change event) and evaluations, for acyclic dependency graphs declared completely.", "quantifier": "all histories", "why_tests_cant": "Histories are unbounded.", "anchors": ["src/maliput/drake/systems/framework/cache.h", "src/maliput/drake/systems/framework/cache_entry.h", "src/maliput/drake/systems/framework/dependency_tracker.cc"]}
{"id": "C53", "title": "Phase ring loader applies defaults per phase", "statement": "In a loaded phase ring, the state of a rule in a phase is the one written for that phase, or the rule's default state when the phase does not mention it.", "quantifier": "all documents (any number of phases and rules)", "why_tests_cant": "Needs documents where a later phase omits a rule an earlier one sets.", "anchors": ["src/maliput/base/phase_ring_book_loader.cc: BuildPhaseRing"]}
{"id": "C54", "title": "Unique bulb id strings are unique", "statement": "Two different (traffic light, bulb group, bulb) triples have different unique id strings.", "quantifier": "all triples of non-empty ids", "why_tests_cant": "Requires ids containing the delimiter.", "anchors": ["include/maliput/api/rules/traffic_lights.h: UniqueBulbId"]}
{"id": "C55", "title": "create_directory_recursive creates all parents", "statement": "create_directory_recursive(path) succeeds whenever the missing directories of path can be created, and then all prefixes of path are directories.", "quantifier": "all paths and file system states", "why_tests_cant": "Path strings are unbounded; one-letter first components.", "anchors": ["src/maliput/common/filesystem.cc: create_directory_recursive"]}
{"id": "C56", "title": "Matrix inverse and determinant laws", "statement": "For 2x2, 3x3 and 4x4 matrices with |det| not below tolerance, inverse() times the matrix is the identity on both sides, det is multiplicative and unchanged by transpose; inverse() throws exactly when the determinant is below tolerance.", "quantifier": "all real matrices", "why_tests_cant": "Continuum.", "anchors": ["src/maliput/math/matrix.cc"]}
{"id": "C57", "title": "Quaternion rotations are isometries and compose", "statement": "For unit quaternions TransformVector preserves norms and dot products, (q*r)*v = q*(r*v), Inverse undoes the rotation and ToRotationMatrix()*v equals TransformVector(v).", "quantifier": "all unit quaternions and vectors", "why_tests_cant": "Continuum.", "anchors": ["src/maliput/math/quaternion.cc"]}
{"id": "C58", "title": "Quaternion::FromTwoVectors rotates one vector onto the other", "statement": "For all non-zero a,b, FromTwoVectors(a,b)*a has the direction of b.", "quantifier": "all pairs of non-zero vectors", "why_tests_cant": "Anti-parallel pairs form a measure-zero set.", "anchors": ["src/maliput/math/quaternion.cc: SetFromTwoVectors"]}
{"id": "C59", "title": "RollPitchYaw conversions agree", "statement": "ToMatrix() and ToQuaternion().ToRotationMatrix() are the same rotation for every roll, pitch, yaw, the matrix is orthonormal with determinant 1.", "quantifier": "all angles", "why_tests_cant": "Continuum.", "anchors": ["src/maliput/math/roll_pitch_yaw.cc"]}
{"id": "C60", "title": "BoundingBox::Overlaps is right for rotated boxes", "statement": "For two oriented boxes, Overlaps is kDisjointed exactly when they share no point.", "quantifier": "all positions, orientations and sizes", "why_tests_cant": "Continuum of poses.", "anchors": ["src/maliput/math/bounding_box.cc"]}
{"id": "C61", "title": "Road network validation accepts only consistent networks", "statement": "ValidateRoadNetwork with a check enabled returns normally only if the checked condition holds for every entity: related bulb groups exist, phases refer to existing rules/bulbs with valid states, related rules exist, rule zones are contiguous, hierarchy is consistent, every lane has a direction usage rule.", "quantifier": "all road networks and option sets", "why_tests_cant": "Arbitrary networks.", "anchors": ["src/maliput/api/road_network_validator.cc"]}
{"id": "C62", "title": "Lane stripes, arrows and grid units", "statement": "StripeLaneBounds draws stripes along both bounds over the whole lane; MarkLaneEnds never aborts and each arrow fills exactly the triangle described (80% of the bounds at its base), inside the length of the lane; PickGridUnit is at least the linear tolerance, at most the maximum and otherwise the largest that splits widths and length into min_resolution parts.", "quantifier": "all lanes, bounds, grid units, tolerances and widths", "why_tests_cant": "Continuum of lengths, bounds and grid units, with loops whose number of rounds depends on them.", "anchors": ["src/maliput/utility/generate_obj.cc: StripeLaneBounds, DrawLaneArrow, MarkLaneEnds, PickGridUnit"]}
{"id": "C63", "title": "Traffic light books load what is written", "statement": "Loading a traffic light book document returns exactly the book it describes, accepts exactly the documents that describe one (ids present and unique, arrows oriented, known colors, types and states), throws otherwise without aborting, and gives back any book written as such a document.", "quantifier": "all YAML documents, all books", "why_tests_cant": "Documents are unbounded trees; tests load a few.", "anchors": ["src/maliput/base/traffic_light_book_loader.cc: LoadTrafficLightBook", "src/maliput/api/rules/traffic_lights.cc: Bulb, BulbGroup, TrafficLight"]}
{"id": "C64", "title": "Rule registries load what is written", "statement": "Loading a rule registry document registers exactly the rule types and values it describes, rejects duplicates, mixed types, negative severities and values with unknown attributes, and never aborts.", "quantifier": "all YAML documents", "why_tests_cant": "Documents are unbounded trees; needs odd attributes beside well-formed values.", "anchors": ["src/maliput/base/rule_registry_loader.cc: LoadRuleRegistry", "src/maliput/base/yaml_conversion.cc"]}
{"id": "C65", "title": "RollPitchYaw derivatives", "statement": "CalcRotationMatrixDt(d) is the time derivative of ToMatrix() along every motion whose angles have rates d.", "quantifier": "all differentiable motions, all angles and rates", "why_tests_cant": "A limit over a continuum; tests compare finite differences at a few angles.", "anchors": ["src/maliput/math/roll_pitch_yaw.cc: CalcRotationMatrixDt, CalcRotationMatrixDtDroll/Dpitch/Dyaw"]}
{"id": "C66", "title": "RollPitchYaw from a quaternion", "statement": "SetFromQuaternion gives angles in the documented ranges whose rotation is the quaternion's: exactly away from gimbal lock and at it, within 2^-49 in every matrix entry next to it; angles away from gimbal lock survive ToQuaternion and back.", "quantifier": "all quaternions, all angles", "why_tests_cant": "Continuum with a singularity at pitch +-pi/2.", "anchors": ["src/maliput/math/roll_pitch_yaw.cc: SetFromQuaternion, CalcRollPitchYawFromQuaternionAndRotationMatrix"]}
{"id": "C67", "title": "Quaternions from matrices and axes, interpolation and distance", "statement": "The matrix constructor gives a unit quaternion of the same rotation for every rotation matrix; the angle-axis constructor turns by the angle about the axis; Slerp of unit quaternions is a unit quaternion at fractions t and 1-t of the angle from the ends; AngularDistance of unit quaternions is the largest angle between images of one vector and a metric on rotations; two unit quaternions are the same rotation iff equal up to sign.", "quantifier": "all rotation matrices, axes, unit quaternions and fractions", "why_tests_cant": "Continuum, with four cases of the matrix constructor.", "anchors": ["src/maliput/math/quaternion.cc: Quaternion(Matrix3), Quaternion(angle, axis), Slerp, AngularDistance"]}
{"id": "C68", "title": "Orientations and their distance", "statement": "Every Rotation obtained through the API (default, FromQuat, FromRpy, set_quat, Reverse) rotates space, its matrix() is that rotation, FromRpy is roll about x then pitch about y then yaw about z, Reverse negates the s and r directions and keeps h, and twice Reverse is the same orientation. Distance is the root of the summed squares of the angles between the images of the axes; it is a metric on orientations (symmetric, zero exactly for equal orientations, triangle inequality), does not change when both are reversed, and lies between 2 sqrt 2 sin(t/2) and sqrt 2 t for the angle t of the rotation from one to the other; so ends within the angular tolerance of one reference are within twice it of each other. InertialPosition::Distance is a metric.", "quantifier": "all quaternions, angles, rotations reached by any sequence of constructors and Reverse, and positions", "why_tests_cant": "the triangle inequality and the comparison with the rotation angle are statements over a continuum of pairs and triples of orientations", "anchors": ["src/maliput/api/lane_data.cc: InertialPosition::Distance, Rotation::Apply, matrix, Reverse, Distance", "include/maliput/api/lane_data.h: Rotation"]}
{"id": "C69", "title": "Distance of equal orientations in double precision", "statement": "Rotation::Distance of an orientation to itself is zero (or at least a number under the angular tolerance) in double precision, so that a place on the road is contiguous with itself, and CheckInvariants reports lane ends that are turned against each other.", "quantifier": "all finite quaternions, tolerances and implementations of acos that return NaN above one", "why_tests_cant": "whether an inner product of rounded unit vectors exceeds one depends on the bits of the heading; tests use a few headings where it does not", "anchors": ["src/maliput/api/lane_data.cc: Rotation::Distance", "src/maliput/api/regions.cc: IsContiguous", "src/maliput/api/road_geometry.cc: CheckInvariants"]}
{"id": "C70", "title": "Polynomial operators compute the polynomial they are written as", "statement": "Any expression built of Polynomial's +, -, *, unary minus, scalar operations and pow is the polynomial it denotes: evaluated at any point (EvaluateMultivariate, EvaluatePartial, Subs, Substitute) it gives the value of the expression, like monomials are combined, none of the coefficients left by + - * is zero, and what is written with one variable stays univariate. Equality and almost-equality imply equal and almost equal values; Factor divides exactly when it can; GetVariables and IsAffine answer what they say.", "quantifier": "all expressions of any depth, coefficients (exact), variables, exponents and points", "why_tests_cant": "identities between polynomials hold for all points and all nestings of operators; tests evaluate a few of them at a few points", "anchors": ["include/maliput/drake/common/polynomial.h", "src/maliput/drake/common/polynomial.cc: constructors, MakeMonomialsUnique, operators, EvaluateMultivariate, EvaluatePartial, Subs, Substitute, CoefficientsAlmostEqual, Factor"]}
{"id": "C71", "title": "Calculus of univariate polynomials", "statement": "For a univariate polynomial EvaluateUnivariate(x, k) is the k-th derivative at x, Derivative(k) is a polynomial whose curve is the k-th derivative, Integral(c) is one whose slope is the given polynomial and whose value at 0 is c, GetCoefficients lists the coefficients by power, and the root of a first degree polynomial is a zero.", "quantifier": "all univariate polynomials of any degree, all orders of differentiation, all points", "why_tests_cant": "that a formula is the derivative is a limit statement at every point, for every degree and order", "anchors": ["src/maliput/drake/common/polynomial.cc: EvaluateUnivariate, Derivative, Integral, GetCoefficients, Roots"]}
{"id": "C72", "title": "Polynomial variable names and ids", "statement": "A documented name (one to four of the 30 letters) with a number in range gets an id from which the same name and number are printed, so no two of them share an id; names outside the documented ones are refused.", "quantifier": "all names and numbers in range", "why_tests_cant": "there are about two thousand million documented names; an accidental collision is not met by a few of them", "anchors": ["src/maliput/drake/common/polynomial.cc: IsValidVariableName, VariableNameToId, IdToVariableName"]}
{"id": "C73", "title": "Trajectories evaluate as their polynomials say", "statement": "A PiecewisePolynomial looks up exactly one segment for every time, the one holding the closest time in range; value and EvalDerivative are the value and k-th derivative of that segment's polynomial at the closest time; derivative(j) is the trajectory of the j-th derivatives; integral(v) starts at v, is continuous and has the trajectory as its slope; vector_values lists values; scalarValue is the entry of value.", "quantifier": "all well formed trajectories of any number and degree of segments, any matrix size, all times in and out of range, all orders", "why_tests_cant": "times form a continuum, and derivative and integral are statements at every time", "anchors": ["src/maliput/drake/common/trajectories/piecewise_polynomial.cc: EvalDerivative, scalarValue, derivative, integral, vector_values", "src/maliput/drake/common/trajectories/piecewise_trajectory.cc: get_segment_index"]}
{"id": "C74", "title": "Moving, cutting and joining trajectories keeps the values", "statement": "shiftRight, ScaleTime and ReverseTime give the same values at the moved, scaled and negated time; slice keeps the values of its segments; ConcatenateInTime follows the first trajectory, then the second; AppendCubicHermiteSegment and AppendFirstOrderSegment keep all earlier values, start where the trajectory ended (with its slope) and end at the given sample (with the given slope); RemoveFinalSegment undoes them. The documented misuses throw.", "quantifier": "all well formed trajectories, offsets, positive factors, ranges of segments, times and samples", "why_tests_cant": "values agree for a continuum of times and trajectories of any length", "anchors": ["src/maliput/drake/common/trajectories/piecewise_polynomial.cc: shiftRight, ScaleTime, ReverseTime, slice, ConcatenateInTime, AppendCubicHermiteSegment, AppendFirstOrderSegment, RemoveFinalSegment"]}
{"id": "C75", "title": "Trajectory operators act on the values", "statement": "For trajectories over the same times in the same variable, + and - add and subtract the values, * multiplies them, adding or subtracting a matrix and unary minus do so for the values at every time; Block and Reshape select and rearrange entries; setPolynomialMatrixBlock changes the named block of the named segment only; isApprox is reflexive and implies approximately equal polynomials; the constructor accepts exactly well spaced breaks and equally sized matrices; trajectories over different times are refused.", "quantifier": "all well formed trajectories of any size and all times", "why_tests_cant": "pointwise identities over a continuum of times, for any number of segments and entries", "anchors": ["src/maliput/drake/common/trajectories/piecewise_polynomial.cc: operators, isApprox, Block, Reshape, setPolynomialMatrixBlock, constructors"]}
{"id": "C76", "title": "Trajectories through samples", "statement": "ZeroOrderHold holds each sample, FirstOrderHold joins samples linearly, CubicHermite passes through samples with the given slopes, CubicShapePreserving passes through the samples with continuous slope and is monotonic wherever the samples are, CubicWithContinuousSecondDerivatives passes through the samples with continuous first and second derivatives and the chosen end condition, LagrangeInterpolatingPolynomial passes through all samples. Samples of wrong number or size or times too close are refused.", "quantifier": "all break sequences and samples of any number and size", "why_tests_cant": "monotonicity is a statement about every pair of times, the rest about any number of samples", "anchors": ["src/maliput/drake/common/trajectories/piecewise_polynomial.cc: ZeroOrderHold, FirstOrderHold, CubicHermite, CubicShapePreserving, CubicWithContinuousSecondDerivatives, LagrangeInterpolatingPolynomial, CheckSplineGenerationInputValidityOrThrow"]}
{"id": "C77", "title": "Comparisons report no difference exactly when the fields agree", "statement": "IsEqual on zones, speed limit, direction usage, right of way, discrete and range rules, right of way results, next phases, phases, bulbs, bulb groups and traffic lights returns an empty message exactly when every observable field agrees (doubles to one machine epsilon, unordered collections by contents); a message of a collector states exactly how many of how many comparisons failed.", "quantifier": "all pairs of objects, with maps, vectors and nested objects of any size", "why_tests_cant": "pairs of objects that differ in one field, at any depth, form an unbounded family; a field forgotten by the comparison is invisible to tests that use the same comparison", "anchors": ["src/maliput/api/rules/compare.cc: IsEqual", "src/maliput/api/compare.cc: IsEqual", "include/maliput/common/compare.h"]}
{"id": "C78", "title": "Comparisons return and do not depend on the order of the arguments", "statement": "Comparing any two objects returns a result rather than throwing or reading through an empty optional or null pointer; every object equals itself; swapping the arguments does not change whether a difference is reported.", "quantifier": "all pairs of objects", "why_tests_cant": "needs every combination of present and missing optional parts and keys on both sides", "anchors": ["src/maliput/api/rules/compare.cc: IsEqual", "src/maliput/api/compare.cc: IsEqual, IsLaneEndEqual"]}
{"id": "C79", "title": "Closeness means within the tolerance", "statement": "IsInertialPositionClose, IsLanePositionClose, IsRotationClose, IsRBoundsClose, IsHBoundsClose and the lane, road, phase and route position result versions return an empty message exactly when every coordinate differs by at most the tolerance (and lanes and indices agree), in either order of the arguments; objects with NaN coordinates are not close to anything.", "quantifier": "all positions, tolerances and results, including non finite doubles", "why_tests_cant": "coordinates and tolerances form a continuum, and non finite values are combinations tests rarely reach", "anchors": ["src/maliput/api/compare.cc: Is...Close", "src/maliput/routing/compare.cc"]}
{"id": "C80", "title": "CompareVectors and CompareMatrices", "statement": "They are symmetric, accept an object compared with itself for every tolerance that is not negative, report a NaN against a number and an infinity against anything but itself, with absolute and with relative tolerance.", "quantifier": "all vectors and matrices of doubles, finite or not, all tolerances, both kinds of tolerance", "why_tests_cant": "there are 2^128 pairs of doubles per component, and non finite components interact with the relative tolerance", "anchors": ["src/maliput/math/compare.cc: CompareVectors, CompareMatrices"]}
{"id": "C81", "title": "CheckIdIndexing detects every wrong index", "statement": "CheckIdIndexing returns an empty result exactly when the id index of the road geometry returns every junction, segment, lane and branch point for its own id.", "quantifier": "all road geometries of any size and all indices", "why_tests_cant": "an index can be wrong at any one object of an arbitrarily large geometry", "anchors": ["src/maliput/api/compare.cc: CheckIdIndexing"]}
{"id": "C82", "title": "Rulebook documents of the rule registry load as described", "statement": "LoadRoadRulebookFromFile with a rule registry succeeds exactly on documents whose rules name registered types, zones on existing lanes within their lengths, and values the type has; the rulebook then holds exactly the rules described, with their zones, values or ranges and related rules; everything else throws std::exception, nothing aborts.", "quantifier": "all YAML documents of any size and depth, all registries and road geometries", "why_tests_cant": "documents form an unbounded family and the rules interact through unique ids and related rules", "anchors": ["src/maliput/base/road_rulebook_loader_using_rule_registry.cc"]}
{"id": "C83", "title": "Rulebook documents of the old format load as described", "statement": "LoadRoadRulebookFromFile without a registry accepts exactly the described documents, yields the right of way and direction usage rules described, and the discrete value rules derived from them (vehicle stop in zone behaviour, right of way, direction usage) with the yield and bulb groups translated to related ids; other documents throw, nothing aborts.", "quantifier": "all YAML documents of any size, all road geometries", "why_tests_cant": "the derived rules depend on every state of every rule; collisions of derived ids need specific combinations of ids", "anchors": ["src/maliput/base/road_rulebook_loader.cc"]}
{"id": "C84", "title": "Phase rings over right of way rules load as described", "statement": "LoadPhaseRingBookFromFileOldRules accepts exactly rings whose rules, states, bulbs and transitions exist; each phase holds for every rule of the ring the written state or else the default, with the derived discrete value that belongs to that state, and the written bulb states; nothing aborts.", "quantifier": "all rulebooks the loader produces, all traffic light books, all YAML documents", "why_tests_cant": "any number of phases and rules; defaults concern what a phase does not mention", "anchors": ["src/maliput/base/phase_ring_book_loader_old_rules.cc"]}
{"id": "C85", "title": "Intersection books load as described", "statement": "LoadIntersectionBookFromFile accepts exactly documents whose intersections name existing rings and phases of them under distinct ids; each intersection has the region of the zones of the rules of its ring; the phase provider afterwards has each ring at the initial phase of its intersection with the first transition, and is unchanged when loading throws; nothing aborts.", "quantifier": "all rulebooks, ring books, phase providers and YAML documents", "why_tests_cant": "effects on the provider accumulate over any number of intersections, also of failed loads", "anchors": ["src/maliput/base/intersection_book_loader.cc", "src/maliput/base/intersection_book.cc"]}
{"id": "C86", "title": "Built-in rule types have the documented values", "statement": "BuildDirectionUsageRuleType, BuildRightOfWayRuleType, BuildVehicleStopInZoneBehaviorRuleType and the other built-in types hold exactly the combinations of documented severities and values, each once, and the discrete rules the loaders derive have values of these types.", "quantifier": "all combinations of values and severities, all derived rules", "why_tests_cant": "agreement between two independent lists of strings for every derived rule of every document", "anchors": ["src/maliput/base/rule_registry.cc", "include/maliput/base/rule_registry.h", "src/maliput/base/road_rulebook_loader.cc"]}
{"id": "C87", "title": "Integration steps respect the step limits, the accuracy and the events", "statement": "IntegrateNoFurtherThanTime refuses events in the past and otherwise takes one Kutta step that passes no publish, update or boundary time and is not longer than the maximum step; its result names the event reached. A returning Solve has followed such steps from the initial values to exactly the final time, each with an error estimate within the target accuracy (at most 1/10) unless its size is down at the smallest step; otherwise it throws.", "quantifier": "all ODEs of any dimension, all settings, all event times, any number of steps", "why_tests_cant": "step sizes are adapted from error estimates: the steps taken depend on the ODE at every point and on all earlier steps", "anchors": ["src/maliput/drake/systems/analysis/integrator_base.cc: StepOnceErrorControlledAtMost, CalcAdjustedStepSize, IntegrateNoFurtherThanTime", "src/maliput/drake/systems/analysis/runge_kutta3_integrator.cc: DoStep"]}
{"id": "C88", "title": "Solve returns the solution whatever was solved before", "statement": "After any Solve and DenseSolve calls, returning or throwing, Solve(t0) is the initial state; the integral of a polynomial of degree at most three is exact, that of an L-Lipschitz integrand is within L m / 2 (tf - t0) and within the bounds of the integrand; linear combinations with constant rate advance at that rate. Invalid times or dimensions throw and change nothing. The same call gives the same result.", "quantifier": "all ODEs and integrands, all histories of calls, all settings with non-negative steps", "why_tests_cant": "the cached state makes every result depend on all earlier calls", "anchors": ["src/maliput/drake/systems/analysis/initial_value_problem.cc: Solve, ResetCachedState, SanitizeValuesOrThrow", "src/maliput/drake/systems/analysis/antiderivative_function.h"]}
{"id": "C89", "title": "Solve ends", "statement": "A Solve that starts from its initial values returns a state for every ODE whose Kutta steps up to some size meet the accuracy, in particular for integrands with any Lipschitz constant; an outcome does not change when the loops are watched longer; the requested minimum step size is honoured by every call.", "quantifier": "all ODEs, final times and step settings; executions of any length", "why_tests_cant": "a loop that does not end has no test verdict, and the number of steps has no bound", "anchors": ["src/maliput/drake/systems/analysis/integrator_base.cc: StepOnceErrorControlledAtMost", "src/maliput/drake/systems/analysis/integrator_base.h: IntegrateWithMultipleStepsToTime", "src/maliput/drake/systems/analysis/initial_value_problem.cc: ResetCachedState"]}
{"id": "C90", "title": "DenseSolve interpolates the solution over exactly its interval", "statement": "A returning DenseSolve gives a function defined exactly between initial and final time and throwing elsewhere; between successive states it is the cubic with the states and derivatives of both ends, at the final time it has the value of a Solve that starts over; quadratic integrands are integrated exactly at every time; an empty interval gives an empty dense output.", "quantifier": "all ODEs, histories of calls, times of evaluation, numbers of segments", "why_tests_cant": "continuity over all segments and agreement with Solve concern every evaluation time and every sequence of refused and accepted steps", "anchors": ["src/maliput/drake/systems/analysis/initial_value_problem.cc: DenseSolve", "src/maliput/drake/systems/analysis/integrator_base.h: DoDenseStep", "src/maliput/drake/systems/analysis/hermitian_dense_output.h", "src/maliput/drake/systems/analysis/dense_output.h"]}
{"id": "C91", "title": "Arc length integrators and their functors", "statement": "ArcLengthIntegrator::Evaluate is the integral of the speed from the lower bound of the parameter (exact for cubic speeds, within L m / 2 times the length for Lipschitz speeds, for which it returns); InverseArcLengthIntegrator starts at its configured bounds and stays within the bounds of the derivative, so a parameter comes back within the ratio of the bounds of the speed, exactly for constant speed. The functors accept exactly parameters within tolerance of their domain, clamp them and agree with the integral from p0; image_lower_bound is the constant of the primitive; epsilon shrinks s1.", "quantifier": "all speeds, configurations, histories of calls, parameters and tolerances", "why_tests_cant": "accuracy over all speeds, and independence of the calls made before", "anchors": ["src/maliput/drake/arc_length_integrator.cc", "src/maliput/drake/inverse_arc_length_integrator.cc", "include/maliput/drake/integrator_configuration.h"]}
{"id": "C92", "title": "The Fresnel coordinates are those of the integrals", "statement": "ComputeFresnelCosineAndSine(t) returns for every t a pair; up to |t| = 36974 both coordinates are within 1e-13 of the integrals from 0 to t of cos(pi x^2 / 2) and sin(pi x^2 / 2), beyond within 1 / (3 |t|) + 1e-13; the function is odd and nearby arguments have nearby values, also where the method changes.", "quantifier": "all real arguments", "why_tests_cant": "the function is defined by six coefficient tables and three ranges; tests sample points, a wrong digit or a wrong range shows only between them", "anchors": ["src/maliput/math/fresnel.cc: fresnel, impl_small_x, impl_medium_x", "include/maliput/math/fresnel.h: ComputeFresnelCosineAndSine"]}
{"id": "C93", "title": "The spiral heading is the direction of travel of the spiral", "statement": "FresnelSpiralHeadingDot is the derivative of FresnelSpiralHeading in t, and FresnelSpiralHeading(t, k_dot) is the direction of travel at arc length t on the spiral a (C(t/a), +-S(t/a)), a = sqrt(pi / |k_dot|); the points computed with ComputeFresnelCosineAndSine are within a 1e-13 of it.", "quantifier": "all real t and all k_dot other than zero", "why_tests_cant": "relates a derivative at every point to a closed form", "anchors": ["src/maliput/math/fresnel.cc: FresnelSpiralHeading, FresnelSpiralHeadingDot", "include/maliput/math/fresnel.h"]}
{"id": "C94", "title": "Search paths and file listings", "statement": "GetAllPathsFromEnvironment returns exactly the parts of the variable between colons, in order; GetSuffixFromPath returns what follows the last dot; GetAllFilePathsFromDirectory returns every file below the directory once, with a suffix exactly the files whose name ends in it, and throws exactly when something below cannot be read.", "quantifier": "all variable values, all directory trees of any depth, all suffixes", "why_tests_cant": "trees and strings are unbounded; names with dots in directories, hidden files, empty parts and unreadable subdirectories are combinations no test fixture has", "anchors": ["src/maliput/utility/file_utils.cc: GetSuffixFromPath, GetAllFilePathsFromDirectory, GetAllPathsFromEnvironment"]}
{"id": "C95", "title": "The plugin manager offers the last plugin found with each id", "statement": "A constructed MaliputPluginManager offers for each id the plugin of the last library below MALIPUT_PLUGIN_PATH with that id; AddPlugin adds or replaces exactly that id and changes nothing when it throws; ListPlugins lists each plugin once with its type; open libraries are exactly those of the plugins; pointers from GetPlugin stay valid; libraries that are not plugins do not keep the others from being loaded.", "quantifier": "all search paths, directory trees and libraries, and all sequences of AddPlugin", "why_tests_cant": "depends on libraries installed on the machine, on their order and on the history of additions and failures", "anchors": ["src/maliput/plugin/maliput_plugin_manager.cc", "src/maliput/plugin/maliput_plugin.cc", "include/maliput/plugin/maliput_plugin.h: ExecuteSymbol"]}
{"id": "C96", "title": "Road network loaders come from the plugin with their id", "statement": "MakeRoadNetworkLoader returns the loader of the last plugin found with the id when it is a road network loader, and throws otherwise; CreateRoadNetwork applies that loader; the answer for an id stays the same for the life of the program; a plugin that becomes available later is found.", "quantifier": "all environments and all sequences of calls in a process", "why_tests_cant": "the manager is a function static: the outcome depends on the first call of the process and on changes of the environment between calls", "anchors": ["src/maliput/plugin/create_road_network.cc: MakeRoadNetworkLoader, CreateRoadNetwork"]}
{"id": "C97", "title": "GenerateString shows the road geometry and its text tells it", "statement": "GenerateString returns one line for each id or detail the options ask for, in the order of the tree, indented by two blanks per kind of id asked for above it; two road geometries whose ids lie on one line and do not begin with blanks have the same text only if what is shown is the same, and with all ids asked for only if their trees of ids are the same.", "quantifier": "all road geometries of any size, all 64 combinations of options", "why_tests_cant": "trees are unbounded, and that no two different trees give the same text is a statement about all pairs", "anchors": ["src/maliput/utility/generate_string.cc: GenerateString, ComputeIndentLevels"]}
{"id": "C98", "title": "GenerateDotStream draws every edge and marks exactly the route", "statement": "GenerateDotStream appends to the stream one line per edge of the graph with its nodes and the id of its segment; with a route exactly the edges on the segments of its phases are red; it throws exactly when the stream is null or the segment of some phase has no edge, and then the stream is unchanged; a drawing tells nodes, label and colour of each edge when ids have no blanks, quotes or line ends.", "quantifier": "all graphs, routes and streams", "why_tests_cant": "graphs and routes are unbounded, and that drawings tell graphs apart is a statement about all pairs", "anchors": ["src/maliput/utility/generate_dot.cc: GenerateDotStream"]}
{"id": "C99", "title": "The logger delivers exactly the messages at or above its level", "statement": "After any sequence of messages, set_level, set_log_level and set_sink, the sinks have got exactly the messages at or above the level last set, each at the sink last set, in order, with the heading of its level, its arguments and a line end; messages never throw; set_log_level accepts exactly the names of levels, returns the name of the previous level, and setting that name again restores the logger.", "quantifier": "all sequences of calls, all texts", "why_tests_cant": "the outcome of a call depends on the whole history of the process", "anchors": ["include/maliput/common/logger.h: Logger", "src/maliput/common/logger.cc: Logger::set_level, Logger::set_sink, set_log_level, Logger::format, Sink::log"]}
{"id": "C100", "title": "Membership with tolerance survives rounding", "statement": "Lane::Contains on doubles never turns away a position that in exact arithmetic lies within the bounds of the lane widened by the linear tolerance, accepts nothing beyond them by more than one part in 2^53 of the widened bound, and is false when a coordinate is NaN; AxisAlignedBox accepts exactly ordered corners, contains every double between its corners, reports disjoint exactly when there is no common point, contained only if every double of the box is contained, and GetIntersection has exactly the common points and never throws.", "quantifier": "all finite doubles of any magnitude, all lanes and boxes", "why_tests_cant": "rounding errors show only at particular bit patterns near the boundary; overflow and cancellation need extreme magnitudes", "anchors": ["src/maliput/api/lane.cc: Lane::Contains, IsWithinRange", "src/maliput/math/axis_aligned_box.cc"]}
{"id": "C101", "title": "RangeValidator on doubles stays in its range", "statement": "What a RangeValidator returns is a double in [min, max]; it rejects nothing that is exactly within the tolerance, accepts nothing beyond it by more than a rounding error, rejects NaN, leaves alone what is exactly within the range shrunk by epsilon and otherwise returns the end of the shrunk range up to rounding; std::clamp is called with ordered bounds when the range is at least two epsilons wide.", "quantifier": "all finite doubles as range, tolerance, epsilon and argument, absolute and relative", "why_tests_cant": "the rounding of min + epsilon and max - epsilon depends on the bits of the ends", "anchors": ["src/maliput/common/range_validator.cc: RangeValidator::RangeValidator, RangeValidator::operator()"]}
{"id": "C102", "title": "SRange comparisons on doubles", "statement": "With a tolerance that is not negative, ranges that meet (or contain) in exact arithmetic after widening are always reported so, ranges reported so miss by no more than a rounding error, containing implies meeting, and every range contains and meets itself; with tolerance zero Intersects, Contains and GetIntersection are exact.", "quantifier": "all ranges of finite doubles in either direction, all tolerances", "why_tests_cant": "rounding of the widened ends and overflow depend on bit patterns", "anchors": ["src/maliput/api/regions.cc: SRange::Intersects, SRange::Contains, SRange::GetIntersection"]}
{"id": "C103", "title": "Sampling loops on doubles end and sample evenly", "statement": "A loop for (s = from; s <= to; s += step) on doubles whose ends are below 2^52 steps ends after at most twice the turns of exact arithmetic and one; its samples start at from, never pass to, and are one step apart up to a rounding error, so no place is farther than that from a sample. The samples of DoSampleAheadWaypoints lie on their ranges and are one sampling rate apart along the path, also across ranges, up to a rounding error proportional to the number of ranges.", "quantifier": "all finite doubles, any number of ranges and samples", "why_tests_cant": "accumulated rounding needs long roads; whether a loop ends cannot be seen by running it", "anchors": ["src/maliput/geometry_base/kd_tree_strategy.cc: KDTreeStrategy::KDTreeStrategy", "src/maliput/api/road_geometry.cc: RoadGeometry::DoSampleAheadWaypoints"]}
{"id": "C104", "title": "Nearest point search on doubles", "statement": "On points with finite double coordinates KDTree::nearest_point returns a stored point such that no stored point has a smaller squared distance as computed, or one whose computed squared distance is below the tolerance; pruning loses nothing although differences, squares and sums round and may overflow. In exact arithmetic the point is nearest up to dim + 3 relative roundings and half a smallest double per coordinate. A tolerance that is not positive, or NaN, throws.", "quantifier": "all dimensions, numbers of points, coordinates of any magnitude, all orders std::nth_element may leave", "why_tests_cant": "a pruned subtree with a nearer point shows only when the rounding of one coordinate and of the sum disagree", "anchors": ["include/maliput/math/kd_tree.h: KDTreeBase::nearest_point, SquaredDistance"]}
{"id": "C105", "title": "Range search on doubles", "statement": "On points with finite double coordinates KDTree3D is always built and RangeSearch reports stored points only: every one the region contains between its corners, as often as it is stored, and none that the region does not contain by its own rounded comparison, in an order that depends on the tree only. For finite corners the reported points are within the tolerance up to one part in 2^53 of the widened bounds.", "quantifier": "all numbers of points, coordinates of any magnitude, regions with infinite corners, all orders std::nth_element may leave", "why_tests_cant": "half-space regions with infinite corners are intersected and compared with tolerances at every level of the tree; a subtree wrongly skipped or taken whole shows only for particular points", "anchors": ["include/maliput/math/kd_tree.h: KDTree3D::RangeSearch, Initialize3dRegions", "src/maliput/math/axis_aligned_box.cc: GetIntersection, DoOverlaps, DoContains"]}
{"id": "C106", "title": "Road network construction and membership", "statement": "A RoadNetwork is made exactly when no component is null, holds the components given, and its constructors throw otherwise. Contains(LaneId) is true exactly for ids of lanes that can be reached from the road geometry over its junctions and segments. Contains(RoadPosition) is true only for positions on lanes of the network.", "quantifier": "all components, all orders in which lanes, segments and junctions were added, all ids", "why_tests_cant": "membership depends on the index filled by observers in whatever order the containers were attached", "anchors": ["src/maliput/api/road_network.cc: RoadNetwork::RoadNetwork, RoadNetwork::Contains"]}
{"id": "C107", "title": "Traffic light books and rule tools", "statement": "After any history of AddTrafficLight calls, failed ones included, a TrafficLightBook finds for each id the traffic light added first with it and lists each once; an addition throws exactly for null and for an id already there, changing nothing. GetCurrentYieldGroup and GetCurrentBulbGroup return the group in the state last set for a right of way rule, and throw exactly when there is none, the rule has another type, or the provider is null; that group has all the ids of the group of one state of the rule.", "quantifier": "all histories of additions and of SetState calls, all rulebooks, rules, ids and groups", "why_tests_cant": "the groups depend on the whole history of accepted and refused states", "anchors": ["src/maliput/base/traffic_light_book.cc: AddTrafficLight, DoGetTrafficLight, DoTrafficLights", "src/maliput/base/rule_tools.cc: GetCurrentYieldGroup, GetCurrentBulbGroup"]}
{"id": "C108", "title": "Road position searches by brute force on rounded doubles", "statement": "IsNewRoadPositionResultCloser never holds both ways, decides by distance alone whenever distances differ by more than 1e-12 and one part in 2^53, and ignores the distance when one is NaN. FindRoadPositions returns, in the order of the road geometry, the positions on exactly the lanes at most the radius away and throws exactly for a negative or NaN radius. ToRoadPosition without hint returns a position on one of the lanes, within the tolerance if any is, that is no further than any other but for 1e-12 per lane; with a hint it returns the position on the hinted lane. A lane at a finite distance is preferred to one without.", "quantifier": "all road geometries, all results of ToLanePosition, all doubles as radius and tolerance", "why_tests_cant": "rounded differences against 1e-12 are not transitive, so the result depends on the order and number of lanes", "anchors": ["src/maliput/geometry_base/strategy_base.cc: IsNewRoadPositionResultCloser", "src/maliput/geometry_base/brute_force_strategy.cc: DoToRoadPosition, DoFindRoadPositions"]}
{"id": "C109", "title": "Road position searches over sampled points on rounded doubles", "statement": "For any sampled points and any finite query point, KDTreeStrategy::FindRoadPositions returns positions on sampled lanes at most the radius away, and among them that of every such lane with a sampled point in the cube around the query point. ToRoadPosition without hint returns a position on a sampled lane that is no further than that of any lane with a sampled point in the cube reaching two sampling steps beyond the nearest sampled point, but for 1e-12 per sampled point. A query point with a NaN coordinate, and a negative radius, are refused.", "quantifier": "all sequences of sampled points, all std::nth_element implementations, all finite query points, all radii and sampling steps", "why_tests_cant": "the corners of the search region, the distances and the half edge are all rounded, and may overflow", "anchors": ["src/maliput/geometry_base/kd_tree_strategy.cc: DoToRoadPosition, DoFindRoadPositions, ClosestLane, ClosestLanes", "include/maliput/math/kd_tree.h: nearest_point, RangeSearch"]}
{"id": "C110", "title": "Vectors of rounded doubles", "statement": "Sums and dot products of vectors do not depend on the order of operands, bit for bit. Vectors compare as equal exactly when no component is NaN and all have equal values. The difference of two finite vectors equals Zero() exactly when they are equal; adding Zero() and multiplying by 1 keep all values; the dot product with a unit vector is its component; the norm of a finite vector is never negative or NaN; cross products change sign with the order of operands, and a vector's with itself is zero unless it overflows. reduce removes exactly the component asked for. normalized() of a finite vector that is not zero has length 1.", "quantifier": "all dimensions and all doubles, NaN and infinities included where the statement does not say finite", "why_tests_cant": "each identity holds or fails by rounding, so no sample of values settles it", "anchors": ["src/maliput/math/vector.cc: dot, norm, normalized, operator==, operator+, operator-, operator*, cross, reduce, operator[]"]}
{"id": "C111", "title": "Vectors written as texts", "statement": "FromStr reads \"{A, B, ...}\" with any white space as the values of A, B, ..., for every dimension; a text for another dimension or without braces throws; FromStr(v.to_str()) has in each place what the digits printed there stand for. Texts that do not follow the format throw.", "quantifier": "all dimensions, all texts of numbers and all ways to print and read them that stop at commas and braces", "why_tests_cant": "positions are computed with unsigned differences that cut wrong pieces which still happen to be read right", "anchors": ["src/maliput/math/vector.cc: FromStr, to_str"]}
{"id": "C112", "title": "Matrices of rounded doubles", "statement": "transpose undoes itself; the transpose of a product is the product of the transposes in the other order, bit for bit; the columns of a product are the products with the columns, bit for bit; sums commute bit for bit; products with Identity() keep all values of a finite matrix and the product with a unit vector is a column. A matrix and its transpose have the same determinant. A matrix that cannot be inverted is reported as singular.", "quantifier": "all dimensions and all doubles, NaN and infinities included where the statement does not say finite", "why_tests_cant": "each identity holds or fails by rounding, so no sample of values settles it", "anchors": ["src/maliput/math/matrix.cc: transpose, operator*, operator+, Identity, determinant, is_singular, inverse"]}
{"id": "C113", "title": "Numbers written with a fixed number of digits", "statement": "to_str(x, precision) throws exactly when precision is negative. Otherwise the text of a finite double is a decimal with its sign, exactly precision digits after the point and no needless zeros in front, it stands for the nearest such decimal, ties to even, and can be read in no other way. Larger doubles get texts that stand for no smaller numbers, doubles with the same text differ by at most one unit of the last digit, and with 1074 digits the text is exact. With the precision GenerateObjFile computes from the linear tolerance, every vertex is written within a tenth of the tolerance. With any precision a normal of about unit length is not written as the zero vector. A material is written as seven lines that show its colours with six digits and its opacity with precision digits. A number written as zero has no sign, and no material that is not wholly transparent is written as wholly transparent.", "quantifier": "all doubles, all precisions, all materials", "why_tests_cant": "rounding differs at each decimal tie and each precision", "anchors": ["src/maliput/utility/string_format.cc: to_str", "src/maliput/utility/generate_obj.cc: FormatMaterial, FormatVector3AsRow, kMaterial, precision in GenerateObjFile"]}
