{"id": "C01", "title": "Bounding boxes form a join semilattice and Intersects means 'share a point'", "statement": "For boxes with float64 (non-NaN) sides: a.Merge(b) contains both a and b and is contained in every box that contains both; Contains is reflexive and transitive; a.Intersects(b) is symmetric and, for well-formed boxes, is true exactly when some point lies in both; ContainsVect(v) holds exactly when the degenerate box at v is contained; Expand(v) is the least box containing a and v. Offset moves a box with its points, NewBBForCircle is the least box around the disc, MergedArea is the area of the merged box, and a contained box has no more area.", "quantifier": "all pairs/triples of boxes and all points, over IEEE binary64 (not only reals)", "why_tests_cant": "Universally quantified over all float values, including the equal-edge boundary cases; a test table samples a few boxes.", "anchors": ["bb.go: BB.Intersects, BB.Contains, BB.ContainsVect, BB.Merge, BB.Expand, NewBBForExtents, NewBBForCircle"]}
{"id": "C02", "title": "BB.SegmentQuery returns the exact first entry fraction", "statement": "BB.SegmentQuery(a,b) returns t with 0<=t<=1 exactly when the closed segment a-b meets the closed box, and then t is the smallest fraction whose point lies in the box; otherwise it returns the 'infinity' sentinel; IntersectsSegment agrees.", "quantifier": "all boxes, all segments (including axis-parallel and degenerate ones)", "why_tests_cant": "Ranges over a continuum of segments with several degenerate cases (zero delta on an axis, start inside, touching a corner).", "anchors": ["bb.go: BB.SegmentQuery, BB.IntersectsSegment"]}
{"id": "C03", "title": "BB.ClampVect is the nearest point and BB.WrapVect is a modular reduction", "statement": "For a well-formed box, ClampVect(v) lies in the box, is v itself when v is inside, and no other point of the box is closer to v; for a box of positive size WrapVect(v) lies in the box and differs from v by whole multiples of the box width and height.", "quantifier": "all boxes and points", "why_tests_cant": "Continuum of inputs, sign cases of math.Mod.", "anchors": ["bb.go: BB.ClampVect, BB.WrapVect", "everything.go: clamp"]}
{"id": "C04", "title": "Transforms compose, invert and bound correctly", "statement": "t1.Mult(t2).Apply(p) = t1.Apply(t2.Apply(p)); Inverse is a two-sided inverse of any transform with non-zero determinant; RigidInverse equals Inverse on rigid transforms; t.BB(bb) contains the image of every point of bb and touches it on all four sides; BoneScale/AxialScale/Ortho map their reference points as documented. NewTransformScale scales the axes and t.Scale(x, y) scales before t.", "quantifier": "all transforms, points and boxes", "why_tests_cant": "Algebraic identities over all reals.", "anchors": ["transform.go: Transform.Mult, Transform.Inverse, Transform.RigidInverse, Transform.Apply, Transform.ApplyVector, Transform.BB, NewTransformRigid, NewTransformOrtho, NewTransformAxialScale, NewTransformBoneScale"]}
{"id": "C05", "title": "Body coordinates stay a rigid frame through any history", "statement": "After any sequence of NewBody/SetPosition/SetAngle/SetMass/SetMoment/SetCenterOfGravity-changing mass accumulation/velocity integration, the body's world/local conversions are mutually inverse and distance preserving; SetPosition(p) makes Position() = p; SetAngle rotates about the centre of gravity; mass re-accumulation never moves Position().", "quantifier": "all operation sequences on a body and all argument values", "why_tests_cant": "Quantifies over unbounded histories of setter/integration calls.", "anchors": ["body.go: Body.SetPosition, Body.Position, Body.SetAngle, Body.SetTransform, Body.WorldToLocal, Body.LocalToWorld, Body.AccumulateMassFromShapes, BodyUpdatePosition"]}
{"id": "C06", "title": "HashSet behaves as a finite map for every operation sequence", "statement": "For every sequence of Insert/Remove/Find/Each/Filter with a hash that respects equality, the set holds at most one element per key, Insert returns the already stored element when present and otherwise the transformed one, Find returns exactly the last stored element or the zero value, Remove deletes and returns exactly that element, Count is the number of stored elements, and growing the table changes none of this.", "quantifier": "all operation sequences, all hash values, all key equality relations compatible with the hash", "why_tests_cant": "Needs an induction over unbounded histories including every rehash.", "anchors": ["hashset.go: HashSet.Insert, HashSet.Remove, HashSet.Find, HashSet.Count, HashSet.resize, nextPrime"]}
{"id": "C07", "title": "HashSet iteration is exactly-once and Filter keeps exactly the accepted elements", "statement": "Each calls the function exactly once per stored element; Filter calls it exactly once per stored element and afterwards the set holds exactly those for which it returned true, with Count adjusted accordingly.", "quantifier": "all reachable set states, all (stateful) callbacks", "why_tests_cant": "All table shapes / chain layouts and stateful callbacks.", "anchors": ["hashset.go: HashSet.Each, HashSet.Filter"]}
{"id": "C08", "title": "HashSet chains stay short and the table never divides by zero", "statement": "At all times the element count is strictly below the table size and the table size is a positive entry of the prime table; growth fails (index panic) only when more than 1610612741 bins would be needed.", "quantifier": "all operation sequences", "why_tests_cant": "Load-factor invariant over unbounded insert sequences.", "anchors": ["hashset.go: HashSet.Insert, HashSet.resize, nextPrime, primes, NewHashSet"]}
{"id": "C09", "title": "The bounding-box tree always bounds its contents", "statement": "After any sequence of Insert/Remove/ReindexObject/ReindexQuery on the dynamic and static trees, each tree's leaves are exactly the indexed shapes, each once, every inner node has two children and a box containing the boxes of every leaf beneath it, and the leaf count equals Count().", "quantifier": "all operation histories of two linked trees, all float64 shape boxes and velocities", "why_tests_cant": "Structural invariant of a self-adjusting tree over unbounded histories.", "anchors": ["bb_tree.go: BBTree.Insert, BBTree.Remove, BBTree.ReindexObject, BBTree.ReindexQuery, SubtreeInsert, SubtreeRemove, ReplaceChild, LeafUpdate"]}
{"id": "C10", "title": "Every indexed shape's fat box covers its true box", "statement": "Whenever a shape is (re)indexed, the leaf box used for all queries contains the shape's box, for every velocity, in float64 arithmetic; and a leaf is only left alone when its stored box already contains the new one.", "quantifier": "all shape boxes and velocities (finite float64), all histories", "why_tests_cant": "Float rounding in the fattening arithmetic cannot be sampled exhaustively.", "anchors": ["bb_tree.go: BBTree.GetBB, BBTree.LeafUpdate, BBTree.NewLeaf"]}
{"id": "C11", "title": "Box queries on the tree are complete and report each shape once", "statement": "Query(bb) calls back exactly once for each indexed shape whose leaf box intersects bb and for no other; hence for every shape whose own box intersects bb.", "quantifier": "all reachable trees, all query boxes", "why_tests_cant": "Pruning correctness over every tree shape.", "anchors": ["bb_tree.go: BBTree.Query, Node.SubtreeQuery", "space.go: Space.BBQuery, Space.bbQuery"]}
{"id": "C12", "title": "Broad-phase pair enumeration is complete and exactly-once", "statement": "ReindexQuery calls the collision callback exactly once for every unordered pair of dynamic shapes whose leaf boxes intersect and exactly once for every (dynamic, static) pair whose leaf boxes intersect, and for nothing else, regardless of which shapes moved, of what the pair cache contains and of any preceding history of insertions, removals, reindexing and queries on both trees.", "quantifier": "all histories of operations on the linked dynamic/static trees, all subsets of shapes moving between queries", "why_tests_cant": "The pair cache is history dependent; a missed or duplicated pair only shows for particular interleavings of moves, insertions and removals.", "anchors": ["bb_tree.go: ReindexQuery, MarkSubtree, MarkLeaf, MarkLeafQuery, PairInsert, PairsClear, LeafAddPairs, IncrementStamp, GetMasterTree"]}
{"id": "C13", "title": "Tree ray casts prune soundly", "statement": "Segment queries through the tree return the same minimum hit fraction as testing every leaf, provided each shape's reported fraction is not smaller than the fraction at which the segment enters its leaf box and is below the exit fraction; the callback is invoked at most once per shape.", "quantifier": "all reachable trees, all segments, all callbacks satisfying the bound", "why_tests_cant": "Pruning order depends on tree shape and intermediate exit fractions.", "anchors": ["bb_tree.go: Node.SubtreeSegmentQuery, BBTree.SegmentQuery", "space.go: Space.SegmentQueryFirst, queryFirst"]}
{"id": "C14", "title": "Thick ray casts do not miss shapes", "statement": "SegmentQueryFirst(start,end,radius,filter) finds a shape whenever one of the shapes in the space is hit by the swept circle of that radius.", "quantifier": "all spaces, segments and radii", "why_tests_cant": "Requires comparing pruning boxes with swept geometry for every configuration.", "anchors": ["space.go: Space.SegmentQueryFirst, Space.SegmentQuery", "bb_tree.go: Node.SubtreeSegmentQuery"]}
{"id": "C15", "title": "Pair threads and node pools never alias live data", "statement": "Every live pair is reachable from exactly the pair lists of its two leaves, lists are properly doubly linked, unlinking a leaf's pairs removes exactly those pairs from the other leaves' lists, and recycled pairs/nodes are never reachable from a live list or tree.", "quantifier": "all interleavings of PairInsert/PairsClear/recycle over the pointer structure", "why_tests_cant": "Pointer aliasing bugs depend on the exact history of pool reuse.", "anchors": ["bb_tree.go: PairInsert, PairsClear, Thread.Unlink, PairFromPool, RecyclePair, NodeFromPool, RecycleNode"]}
{"id": "C16", "title": "SpaceHash box queries are complete and at-most-once", "statement": "After any sequence of Insert/Remove/ReindexObject/ReindexQuery a spatial-hash Query(bb) reports every indexed shape whose box (at its last (re)hash) intersects bb, never the same shape twice, and never a removed shape.", "quantifier": "all histories, all cell sizes > 0, all table sizes, all hash collisions", "why_tests_cant": "Depends on arbitrary hash collisions and orphaned handles.", "anchors": ["space_hash.go: Insert, Remove, ReindexObject, ReindexQuery, Query, hashHandle, queryHelper, removeOrphanedHandles, hashFunc"]}
{"id": "C17", "title": "SpaceHash handle reference counts are exact", "statement": "Each handle's retain count equals the number of table bins holding it plus one if it is in the handle set; a handle is returned to the pool exactly when nothing refers to it.", "quantifier": "all operation histories", "why_tests_cant": "Use-after-recycle only manifests for particular histories.", "anchors": ["space_hash.go: Handle.retain, Handle.release, clearTableCell, removeOrphanedHandles, hashHandle"]}
{"id": "C18", "title": "SpaceHash ray casts visit every cell crossed by the segment", "statement": "SegmentQuery through the spatial hash visits every grid cell the segment passes through (so finds every shape in them).", "quantifier": "all segments, including those starting on cell boundaries in any direction", "why_tests_cant": "Fails only on exact boundary/direction combinations.", "anchors": ["space_hash.go: SegmentQuery, segmentQueryHelper"]}
{"id": "C19", "title": "Shape filters reject symmetrically and as documented", "statement": "a.Reject(b) = b.Reject(a); two shapes in the same non-zero group are always rejected; otherwise they are accepted exactly when each one's categories share a bit with the other's mask; ShapeFilterAll accepts every filter with non-zero categories and mask and ShapeFilterNone rejects every filter.", "quantifier": "all 2^64-ish filter values", "why_tests_cant": "Bit-level statement over all 64-bit words.", "anchors": ["everything.go: ShapeFilter.Reject, ShapeFilterAll, ShapeFilterNone"]}
{"id": "C20", "title": "Pair keys are order independent", "statement": "The key used to cache collisions and to look up handlers is the same for (a,b) and (b,a), and lookups for either order return the same handler/arbiter.", "quantifier": "all 64-bit ids, all shape/type pairs", "why_tests_cant": "All 64-bit operands with wrap-around multiplication.", "anchors": ["collision.go: HashPair", "space.go: arbiterSetEql, LookupHandler, SpaceCollideShapesFunc, NewSpace handlers equality"]}
{"id": "C21", "title": "Collision handlers are dispatched to the right types in the right order", "statement": "For any set of registered handlers the callbacks run for a touching pair are those registered for that unordered type pair (else the default), Arbiter.Shapes() inside them lists first the shape whose type is the handler's TypeA, and wildcard callbacks see first the shape of their own type; re-registering a pair returns the existing handler.", "quantifier": "all handler registrations, all type pairs, both shape orders", "why_tests_cant": "Quantifies over all registration histories and type assignments.", "anchors": ["arbiter.go: Update, Shapes, CallWildcardBeginA, CallWildcardBeginB, DefaultBegin", "space.go: AddCollisionHandler, AddWildcardCollisionHandler, LookupHandler"]}
{"id": "C22", "title": "Begin and separate callbacks alternate strictly for every pair", "statement": "For every shape pair and every history of steps (any touching pattern, any callback results, any CollisionPersistence >= 1), begin is called exactly when the pair starts touching, separate exactly when it stops (or a shape is removed), and never two of the same kind in a row.", "quantifier": "all step histories, touching patterns and callback return values", "why_tests_cant": "Temporal property over unbounded step histories.", "anchors": ["space.go: SpaceCollideShapesFunc, Step, FilterArbiters", "hashset_arbiter.go: SpaceArbiterSetFilter, CachedArbitersFilter", "arbiter.go: Init, Update, Ignore"]}
{"id": "C23", "title": "Ignored, rejected and sensor collisions are never solved", "statement": "While a pair is ignored (begin returned false or Ignore called from begin/preSolve) no preSolve/postSolve is called and no impulse is applied until after it separates; a false preSolve drops only the current step; pairs involving a sensor never enter the solver; postSolve runs in a step exactly for the pairs whose contacts were solved in it.", "quantifier": "all step histories and callback results", "why_tests_cant": "Temporal property over all histories.", "anchors": ["space.go: SpaceCollideShapesFunc, Step", "arbiter.go: Ignore"]}
{"id": "C24", "title": "Cached contact data is never overwritten while it can still be read", "statement": "The contact memory referenced by a cached arbiter is not handed out again before the arbiter is dropped from the cache; at most 1024 contacts are ever written to one buffer.", "quantifier": "all step histories, all contact counts per step, all CollisionPersistence values", "why_tests_cant": "Ring-buffer recycling depends on the whole history of contact counts.", "anchors": ["space.go: PushFreshContactBuffer, ContactBufferGetArray, PushContacts, PopContacts", "contact_buffer.go", "hashset_arbiter.go: SpaceArbiterSetFilter"]}
{"id": "C25", "title": "Post-step callbacks run exactly once, after the outermost unlock, in order", "statement": "A callback registered while the space is locked runs exactly once, after the outermost Lock/Unlock pair ends, in registration order, with its own key; a second registration with a pending key is refused and has no effect; none runs while the space is locked.", "quantifier": "all nestings of locks and all registration sequences, including registrations from inside post-step callbacks", "why_tests_cant": "Re-entrancy: all nestings and callback programs.", "anchors": ["space.go: AddPostStepCallback, PostStepCallback, Lock, Unlock"]}
{"id": "C26", "title": "Lock/unlock nesting is balanced and mutations are refused while locked", "statement": "Every public operation leaves the lock depth as it found it; operations documented as illegal during callbacks are refused (panic) exactly when the space is locked.", "quantifier": "all call nestings", "why_tests_cant": "All nestings of queries/steps/callbacks.", "anchors": ["space.go: Lock, Unlock, IsLocked, BBQuery, SegmentQuery, EachBody, Step, AddShape, AddBody, RemoveBody, RemoveShape"]}
{"id": "C27", "title": "Each body's contact list is exactly the arbiters touching it", "statement": "Through any sequence of pushes and unthreads, every body's arbiter list is a well-formed doubly linked list containing exactly the arbiters currently threaded on it, and unthreading removes one arbiter from exactly the two lists of its bodies.", "quantifier": "all sequences of PushArbiter/Unthread over any body graph", "why_tests_cant": "Intrusive double lists: corruption appears only in particular orders.", "anchors": ["body.go: PushArbiter", "arbiter.go: Unthread, unthreadHelper, ThreadForBody, Next"]}
{"id": "C28", "title": "Each body's constraint list is exactly the constraints attached to it", "statement": "After any sequence of AddConstraint/RemoveConstraint every body's constraint iteration visits exactly the constraints in the space attached to it, once each, and QueryRejectConstraints rejects a pair exactly when some attached constraint with CollideBodies=false joins them, symmetrically.", "quantifier": "all add/remove histories", "why_tests_cant": "Intrusive singly linked lists threaded through two bodies.", "anchors": ["space.go: AddConstraint, RemoveConstraint, QueryRejectConstraints", "body.go: filterConstraints, RemoveConstraint", "constraint.go: Next"]}
{"id": "C29", "title": "Only whole idle contact components fall asleep", "statement": "When bodies are put to sleep, each sleeping group is exactly a connected component of the graph of dynamic bodies joined by contacts and constraints, and every member has been idle for at least the threshold; no component with a recently active member sleeps; the internal inconsistency exit is unreachable.", "quantifier": "all contact/constraint graphs, all idle-time assignments", "why_tests_cant": "All finite graphs.", "anchors": ["space.go: ProcessComponents, FloodFillComponent, ComponentActive, Deactivate", "body.go: ComponentAdd, ComponentRoot"]}
{"id": "C30", "title": "Waking one body wakes its whole group and restores membership", "statement": "Activating any member of a sleeping group wakes every member of it and no other; every dynamic body of the space is at all unlocked times in exactly one of the awake list or one sleeping group; sleeping then waking restores the awake list, shape index and constraint list up to order.", "quantifier": "all sequences of sleep/wake operations, locked or not", "why_tests_cant": "All histories of sleep and wake, including wake requests while locked.", "anchors": ["body.go: Activate", "space.go: Activate, Deactivate, Unlock"]}
{"id": "C31", "title": "SetGravity wakes every sleeping body", "statement": "After SetGravity no body of the space is asleep.", "quantifier": "all spaces with any number of sleeping groups", "why_tests_cant": "Fails only for particular numbers of groups.", "anchors": ["space.go: SetGravity", "body.go: Activate"]}
{"id": "C32", "title": "Space membership is consistent through any history", "statement": "Through any sequence of AddBody/RemoveBody/AddShape/RemoveShape, ContainsBody/ContainsShape answer according to the last add/remove of that object, each contained shape is in exactly one index (static for static bodies, dynamic otherwise), each contained body in exactly one list, shape ids are never reused, and removing an object never affects another.", "quantifier": "all operation histories obeying the documented preconditions", "why_tests_cant": "Histories are unbounded.", "anchors": ["space.go: AddBody, RemoveBody, AddShape, RemoveShape, ContainsBody, ContainsShape", "body.go: AttachShape, RemoveShape"]}
{"id": "C33", "title": "RemoveBodyWithShapes removes the body and all its shapes", "statement": "After RemoveBodyWithShapes(body) neither the body nor any of its shapes is in the space.", "quantifier": "all bodies with any number of shapes", "why_tests_cant": "Depends on the number of shapes and on iteration-while-deleting.", "anchors": ["space.go: RemoveBodyWithShapes", "body.go: EachShape, RemoveShape"]}
{"id": "C34", "title": "SetType moves a body and its shapes to the right lists", "statement": "After SetType(t) on a body in an unlocked space, Type() = t, the body is in the list and its shapes in the index for t, nothing else moves, and no panic occurs.", "quantifier": "all bodies (awake or asleep), all type changes", "why_tests_cant": "Combination of sleep state, type and shapes.", "anchors": ["body.go: SetType, Type"]}
{"id": "C35", "title": "Mass properties follow from the shapes, independent of order", "statement": "After accumulation from shapes with positive total mass, the body's mass is the sum of shape masses, its centre of gravity is the mass-weighted mean, its moment satisfies the parallel-axis theorem, inverses are reciprocal, and none depends on the order of shapes.", "quantifier": "all lists of shapes with positive masses", "why_tests_cant": "Induction over any number of shapes; real-number identities.", "anchors": ["body.go: AccumulateMassFromShapes"]}
{"id": "C36", "title": "Moment, area and centroid helpers are mutually consistent", "statement": "MomentForPoly/AreaForPoly/CentroidForPoly on a box agree with MomentForBox/area/centre; polygon area and moment are translation invariant (with the offset), centroid is translation equivariant and independent of the starting vertex; MomentForCircle2 agrees with MomentForCircle.", "quantifier": "all polygons with any number of vertices, all offsets", "why_tests_cant": "Arbitrary vertex counts and real coordinates.", "anchors": ["shape_factory.go: MomentForPoly, AreaForPoly, CentroidForPoly, MomentForBox, MomentForCircle, MomentForCircle2, MomentForSegment"]}
{"id": "C37", "title": "Impulses conserve momentum and never move immovable bodies", "statement": "Applying any contact or joint impulse leaves total linear momentum of the two bodies unchanged (and total angular momentum when applied at a common point); bodies of infinite mass are not affected.", "quantifier": "all body states, all impulses, any number of solver iterations", "why_tests_cant": "Identity over all reals and iteration counts.", "anchors": ["arbiter.go: applyImpulses, applyBiasImpulses, ApplyImpulse, ApplyCachedImpulse", "pivot_joint.go", "pin_joint.go", "slide_joint.go", "gear_joint.go", "simple_motor.go", "damped_spring.go"]}
{"id": "C38", "title": "Contact impulses respect non-penetration and Coulomb friction", "statement": "After every solver iteration each contact's accumulated normal impulse and bias impulse are non-negative and its accumulated tangential impulse is at most friction times the normal impulse.", "quantifier": "all body states, contact sets and iteration counts", "why_tests_cant": "Invariant over arbitrary iteration counts and states.", "anchors": ["arbiter.go: ApplyImpulse, PreStep, Update", "everything.go: clamp"]}
{"id": "C39", "title": "Joint impulses respect their force limit and direction", "statement": "After every iteration the accumulated impulse of each joint has magnitude at most maxForce*dt; slide, rotary-limit and ratchet joints only push in their allowed direction; a satisfied limit applies no impulse.", "quantifier": "all joint kinds, states and iteration counts", "why_tests_cant": "Invariant over arbitrary iteration counts and states.", "anchors": ["pin_joint.go", "slide_joint.go", "pivot_joint.go", "groove_joint.go", "gear_joint.go", "simple_motor.go", "rotary_limit_joint.go", "ratchet_joint.go"]}
{"id": "C40", "title": "An unclamped joint iteration satisfies its velocity constraint exactly", "statement": "If the force limit is not hit, one iteration of pivot, pin, gear, motor or rotary joints leaves exactly the relative velocity the joint targets (bias/rate), and an unclamped contact iteration leaves the target normal velocity.", "quantifier": "all body states with finite masses", "why_tests_cant": "Real-number identity involving the inverse mass tensor.", "anchors": ["everything.go: kScalar, kTensor, Mat2x2.Transform", "pivot_joint.go", "pin_joint.go", "simple_motor.go", "gear_joint.go"]}
{"id": "C41", "title": "Narrow phase reports geometrically correct circle and segment contacts", "statement": "Two circles produce a contact exactly when their centres are closer than the radius sum; the normal is unit length from first to second shape, contact points lie on the surfaces, and penetration = distance - radius sum; likewise circle against a rounded segment; swapping the arguments negates the normal and swaps the points.", "quantifier": "all positions and radii", "why_tests_cant": "Continuum of configurations, boundary and degenerate cases.", "anchors": ["collision.go: CircleToCircle, CircleToSegment, Collide, ShapesCollideInfo"]}
{"id": "C42", "title": "Reported contact distance is negative for overlapping shapes", "statement": "For shapes reported as overlapping by ShapesCollideInfo/ShapeQuery every contact point's Distance is <= 0, whatever the order of the two shapes.", "quantifier": "all shape pairs, both orders", "why_tests_cant": "Depends on type order and swap logic.", "anchors": ["collision.go: ShapesCollideInfo, CircleToPoly"]}
{"id": "C43", "title": "Narrow phase terminates and dispatch is total", "statement": "For every pair of circle/segment/polygon shapes Collide selects a defined routine, pushes at most two contacts, and GJK/EPA recursion terminates on every input after at most a fixed number of steps.", "quantifier": "all support functions / coordinates", "why_tests_cant": "Non-termination depends on degenerate geometry.", "anchors": ["collision.go: Collide, BuiltinCollisionFuncs, GJK, GJKRecurse, EPA, EPARecurse, ContactPoints", "shape.go: Order"]}
{"id": "C44", "title": "Point queries return the true signed distance and nearest shape", "statement": "Circle and segment PointQuery return the exact signed distance and a surface point at that distance; for polygons the distance to the boundary with the correct sign; PointQueryNearest returns a non-rejected shape of minimum distance among those closer than the limit, or none if there is none.", "quantifier": "all shapes, points and spaces", "why_tests_cant": "Continuum plus all shape collections.", "anchors": ["circle.go: PointQuery", "segment.go: PointQuery", "polyshape.go: PointQuery", "everything.go: closestPointOnSegment", "space.go: PointQueryNearest"]}
{"id": "C45", "title": "Shape ray casts report the first contact", "statement": "For circles (and rounded ends) the reported Alpha is the smallest fraction in [0,1] at which the swept circle touches the shape, Normal is unit and Point lies on the surface; no hit is reported exactly when there is none.", "quantifier": "all circles, segments and radii", "why_tests_cant": "Continuum; tangential and inside-start cases.", "anchors": ["circle.go: CircleSegmentQuery, Circle.SegmentQuery", "shape.go: Shape.SegmentQuery", "segment.go: SegmentQuery"]}
{"id": "C46", "title": "Shape bounding boxes contain the shape", "statement": "CacheBB/Update's box contains every point of the transformed circle, rounded segment or rounded polygon.", "quantifier": "all transforms, shapes, points", "why_tests_cant": "Continuum and arbitrary vertex counts.", "anchors": ["circle.go: CacheData", "segment.go: CacheData", "polyshape.go: CacheData"]}
{"id": "C47", "title": "convexHull returns the convex hull of its input", "statement": "With tolerance 0 the returned vertices are input vertices, in strictly convex counter-clockwise order, and every input vertex lies inside or on the hull; no input size or degenerate (collinear, duplicate) input panics for one or more points.", "quantifier": "all point lists", "why_tests_cant": "Arbitrary sizes and degenerate positions; in-place partitioning.", "anchors": ["polyshape.go: convexHull, loopIndexes, QHullReduce, QHullPartition"]}
{"id": "C48", "title": "Polyline collection preserves the segments", "statement": "Feeding any sequence of segments to PolyLineCollectSegment yields polylines whose consecutive vertex pairs are exactly the fed segments (as a multiset), whatever joining, looping and extension happens.", "quantifier": "all segment sequences", "why_tests_cant": "Induction over unbounded sequences with joins.", "anchors": ["polyline.go: PolyLineCollectSegment, Push, Enqueue, Join, FindEnds, FindStarts"]}
{"id": "C49", "title": "Polyline simplification keeps endpoints and only drops vertices", "statement": "SimplifyVertexes and SimplifyCurves return a subsequence of the input that keeps the end vertices, never panic, and for curves keep every dropped vertex within the tolerance of the retained chord.", "quantifier": "all polylines and tolerances", "why_tests_cant": "Arbitrary lengths and recursion patterns.", "anchors": ["polyline.go: SimplifyVertexes, SimplifyCurves, DouglasPeucker, IsShort"]}
{"id": "C50", "title": "Marching squares emits gap-free contours", "statement": "For every sampled grid every contour vertex on an interior grid edge is emitted exactly once as a segment start and exactly once as a segment end, so output contours only end on the sampling boundary; this holds bit-for-bit in float arithmetic.", "quantifier": "all grids, sample functions and thresholds", "why_tests_cant": "All 2^(w*h) inside/outside patterns of any size.", "anchors": ["utils/march/march.go: MarchCells, MarchCellSoft, MarchCellHard, Seg, Segs"]}
{"id": "C51", "title": "ContactPointSet round-trips through SetContactPointSet", "statement": "Writing back the unmodified contact set obtained from an arbiter leaves the arbiter's contact geometry (points, distances, normal) unchanged, in either shape order; writing a set with a different count is refused.", "quantifier": "all arbiters, both orders", "why_tests_cant": "Identity over all reals and both swap states.", "anchors": ["arbiter.go: ContactPointSet, SetContactPointSet, Normal, Count"]}
{"id": "C52", "title": "Velocity and position integration respect body kind", "statement": "Integration leaves kinematic velocity untouched, clears accumulated force, torque and bias velocity after use, damping scales velocity exactly, and integrating with no velocity keeps the transform.", "quantifier": "all body states and time steps", "why_tests_cant": "All states.", "anchors": ["body.go: BodyUpdateVelocity, BodyUpdatePosition"]}
{"id": "C53", "title": "Running a pair's callbacks always terminates", "statement": "For every set of registered handlers, the built-in default callbacks of a touching pair return after at most one level of wildcard callbacks.", "quantifier": "all handler registrations and pairs", "why_tests_cant": "Registration combinations are unbounded; the failing combination is unlikely to be tried.", "anchors": ["arbiter.go: DefaultBegin, CallWildcardBeginA", "space.go: AddCollisionHandler, AddWildcardCollisionHandler"]}
{"id": "C54", "title": "GJK reports the true distance and contacts only shapes that touch", "statement": "When the cores of two shapes (centre, segment, hull) are disjoint, the narrow phase's GJK reports their exact distance, a pair of nearest points and the direction between them, and the shapes get a contact only if that distance is at most the sum of their radii (for a circle against a polygon: exactly then); when it reports penetration the cores do share a point.", "quantifier": "all pairs of shapes with coordinates of modest size, all start hints", "why_tests_cant": "Continuum of configurations; the wrong answers occur on measure-zero alignments such as resting level with a side.", "anchors": ["collision.go: GJK, GJKRecurse, ClosestPoints, CircleToPoly, SegmentToSegment, SegmentToPoly, PolyToPoly"]}
{"id": "C55", "title": "Each methods enumerate exactly what the space contains", "statement": "EachBody, EachDynamicBody, EachStaticBody, EachShape, EachStaticShape, EachDynamicShape and EachConstraint call back once for every contained object of their kind, sleeping or not, whatever the callback does, and Body.EachConstraint may be used to remove every constraint of a body.", "quantifier": "all reachable spaces and callbacks that touch bodies", "why_tests_cant": "Skips depend on which bodies sleep in which order and on what the callback wakes.", "anchors": ["space.go: EachBody, EachStaticBody, EachDynamicBody, EachShape, EachStaticShape, EachDynamicShape, EachConstraint, ShapeCount", "body.go: EachConstraint"]}
{"id": "C56", "title": "Persistent contacts keep their impulses and do not depend on shape order", "statement": "A contact found again in the next step starts from its accumulated impulses and a new one from zero; nothing else of older contacts in the reused buffer has any effect; the arbiter reports the contact points of this step; and which shape of a pair comes first changes neither the velocities the solver produces nor what the arbiter reports.", "quantifier": "all pairs, contact sets, old contact memory, solver inputs and iteration counts", "why_tests_cant": "Needs every interleaving of appearing, vanishing and returning contacts with stale buffer contents, in both orders.", "anchors": ["arbiter.go: Update, PreStep, ApplyCachedImpulse, ApplyImpulse, Normal, ContactPointSet, TotalImpulse", "everything.go: PushContact"]}
{"id": "C57", "title": "Contacts only push", "statement": "The impulses of a touching pair, cached and new, never increase its approach or slow its separation: they only push the bodies apart along the normal.", "quantifier": "all pairs, contact sets, body states, iteration counts and time step ratios", "why_tests_cant": "Pulls show only when a pair separates and meets again within the persistence window or the time step shrinks.", "anchors": ["arbiter.go: Update, ApplyCachedImpulse, ApplyImpulse"]}
{"id": "C58", "title": "Each step examines exactly the pairs that can collide, each once", "statement": "In a step the narrow phase is called exactly once for every pair of contained shapes on different bodies, not both at rest, whose filters accept each other, whose boxes intersect and whose bodies no constraint keeps from colliding, and for no other pair; rejection is symmetric.", "quantifier": "all reachable spaces, tree histories, filters, boxes and enumeration orders of the leaf sets", "why_tests_cant": "The pairs depend on the whole insertion and motion history of two trees and on every joint of both bodies.", "anchors": ["space.go: Step, SpaceCollideShapesFunc, QueryReject, QueryRejectConstraints", "bb_tree.go: ReindexQuery"]}
{"id": "C59", "title": "Box and shape queries of a space report exactly the matching shapes", "statement": "BBQuery calls back exactly once for every contained shape that passes the filter and whose box meets the query box; ShapeQuery calls back exactly once for every other contained shape that passes the filter and overlaps the query shape, with the contacts, and returns whether a solid shape was hit.", "quantifier": "all reachable spaces, tree histories, shapes, filters and query shapes", "why_tests_cant": "Missed or false hits depend on fat tree boxes left by earlier velocities and on the order of hits with sensors among them.", "anchors": ["space.go: BBQuery, bbQuery, ShapeQuery"]}
{"id": "C60", "title": "A body's mass always matches its shapes", "statement": "Whatever shapes are attached, removed, resized, given mass or density, and whatever types the body goes through, a dynamic body always has the mass, centre of gravity and moment of its shapes in their current geometry, with finite inverses, and none of these operations moves the body.", "quantifier": "all histories of a body and its shapes, all masses, sizes and placements", "why_tests_cant": "Stale data shows only for particular orders of setters, removals and type changes, and only in the motion afterwards.", "anchors": ["shape.go: SetMass, SetDensity, Density", "body.go: AttachShape, RemoveShape, AccumulateMassFromShapes, SetType", "circle.go: SetRadius", "segment.go: SetRadius, SetEndpoints", "polyshape.go: SetVerts, SetVertsRaw"]}
{"id": "C61", "title": "A new joint pulls at nothing, and what is at rest stays at rest", "statement": "The joint constructors return joints that are already satisfied (a pivot at its point, a pin at its length, a ratchet, and the others when made for the current pose). Bodies at rest without forces, connected by any set of satisfied joints and touching contacts without impulses, keep position, angle and velocity exactly through any number of steps, the joints stay satisfied and every joint and contact reports impulse 0.", "quantifier": "all bodies with any history, sets of joints of all ten kinds, contacts, time steps, iteration counts and numbers of steps", "why_tests_cant": "Drift or self-excitation appears only for particular joint kinds and poses, over long runs, and with mass ratios a test would not pick.", "anchors": ["constraint.go: NewConstraint", "pin_joint.go, pivot_joint.go, slide_joint.go, groove_joint.go, gear_joint.go, ratchet_joint.go, rotary_limit_joint.go, simple_motor.go, damped_spring.go, damped_rotary_spring.go: New*, PreStep, ApplyImpulse", "space.go: Step"]}
{"id": "C62", "title": "The solver does not create energy", "statement": "Without gravity, forces, restitution and friction, a solver run never increases the kinetic energy of the bodies, whatever rigid joints (where they should be, pivots below their force limit) and contacts connect them and however many iterations are made. A bouncing frictionless contact takes exactly the part 1 - e^2 of the energy of the approach. An iteration of a contact with friction, and the damping of a spring, take energy away.", "quantifier": "all bodies, masses, poses and velocities, sets of joints and contacts, damping factors, time steps and iteration counts", "why_tests_cant": "Gains are small per step and need particular geometry: coupling of the axes at an anchor, a joint at its limit, friction that lets go.", "anchors": ["space.go: Step", "arbiter.go: PreStep, ApplyImpulse", "pivot_joint.go, pin_joint.go, slide_joint.go, groove_joint.go, gear_joint.go, ratchet_joint.go, rotary_limit_joint.go, simple_motor.go: PreStep, ApplyImpulse", "everything.go: kScalar, kTensor, applyImpulses, clamp", "body.go: UpdateVelocity"]}
{"id": "C63", "title": "Spring damping is exponential and independent of the iteration count", "statement": "A damped spring that is the only thing acting on its bodies changes their velocity along the spring to (v + force dt k) exp(-damping dt k), with k the inverse effective mass at the anchors, for every number of iterations of at least one; a damped rotary spring does the same for the angular velocities.", "quantifier": "all bodies, anchors, force functions, damping constants, time steps, iteration counts", "why_tests_cant": "A test runs one iteration count; dependence on it shows as stiffness that changes with a quality setting.", "anchors": ["damped_spring.go: PreStep, ApplyImpulse", "damped_rotary_spring.go: PreStep, ApplyImpulse", "space.go: Step"]}
{"id": "C64", "title": "The spatial hash finds what the tree finds", "statement": "UseSpatialHash never panics and leaves every shape of the space in the index it was in. From then on, through any sequence of insertions, removals, reindexing, queries and steps, Each enumerates every shape of the space once, the counts are right, BBQuery calls back exactly the shapes that pass the filter and whose box meets the query, and a step hands exactly the same pairs to the narrow phase as with the tree, each once.", "quantifier": "all reachable spaces, boxes, cell sizes, table sizes, hash collisions, enumeration orders and choices of the handle pool", "why_tests_cant": "Misses depend on hash collisions of cells, on stamps and orphans left by earlier operations and on boxes that span cells.", "anchors": ["space.go: UseSpatialHash, BBQuery, ShapeCount, Step", "space_hash.go: Insert, Each, Count, Query, ReindexQuery", "spatial_index.go: CollideStatic"]}
{"id": "C65", "title": "Reported impulses are the momentum the bodies received", "statement": "After a step every body's change of momentum is exactly what damping, gravity and its own forces give, plus the TotalImpulse of each arbiter EachArbiter shows it, plus the impulses its joints hold (whose length GetImpulse reports); likewise its spin. EachArbiter shows a body each of its arbiters from its own side: itself first, normal away from it, the other body's impulse opposite. The arbiters of a body at rest report its weight.", "quantifier": "all worlds of contacts and joints, all iteration counts, gravity, damping, forces and time steps", "why_tests_cant": "A test compares one scene; a wrong sign, a swapped side or a lost contact shows only in some orders of the shapes and some mixtures of joints.", "anchors": ["arbiter.go: TotalImpulse, Bodies, Normal, ContactPointSet, ApplyCachedImpulse, ApplyImpulse", "body.go: EachArbiter", "constraint.go and joints: GetImpulse", "space.go: Step"]}
{"id": "C66", "title": "Drawing shows the world as it is", "statement": "DrawSpace hands the drawer every shape of the space exactly once, then the constraints and contacts of awake bodies once each. A shape whose data is up to date fills exactly the points it covers, in the drawer's colours; a joint is drawn at its anchors, a spring as a zigzag of 14 lines from anchor to anchor; a contact as a short line through both its points along the normal.", "quantifier": "all reachable spaces, drawers, shapes, bodies with any history, joints of all kinds, contacts", "why_tests_cant": "Drawing is looked at, not tested: a swapped corner, a forgotten radius or a sleeping group that disappears shows only in some scenes.", "anchors": ["idrawer.go: DrawShape, springVerts, DrawConstraint, DrawSpace"]}
{"id": "C67", "title": "Idle time measures motion against the threshold", "statement": "In a step with sleeping enabled the idle time of a dynamic body is reset exactly when its kinetic energy exceeds that of moving without spin at IdleSpeedThreshold (or, if that is 0, at the speed gravity adds in one step), and otherwise grows by dt. A body in free fall is never idle after its second step. An awake body that is too fast is awake after the step and keeps everything connected to it awake.", "quantifier": "all dynamic bodies, velocities, spins, masses, thresholds, gravities and time steps; all reachable spaces", "why_tests_cant": "A wrong power or a missing factor only moves the threshold; tests see sleeping eventually happen or not happen.", "anchors": ["space.go: ProcessComponents", "body.go: KineticEnergy, IdleTime, UpdateVelocity"]}
{"id": "C68", "title": "A loaded world in equilibrium stays exactly as it is", "statement": "If all bodies are still, the contacts found again push within the friction cone and are no deeper than the slop, the joints are in place with loads their maximal force allows, and the impulses on every dynamic body balance its weight without turning it, then after any number of steps every body is exactly as before, every body reports the same impulse from its arbiters, and every joint holds the same impulse.", "quantifier": "all worlds of bodies, contacts and joints of all kinds in equilibrium; all numbers of steps, iteration counts and bias coefficients", "why_tests_cant": "Creep of a stack or of a hanging weight is below test tolerances per step and depends on the mixture of contacts and joints.", "anchors": ["space.go: Step", "arbiter.go: Update, PreStep, ApplyCachedImpulse, ApplyImpulse", "pivot_joint.go, pin_joint.go, gear_joint.go, simple_motor.go, damped_spring.go, damped_rotary_spring.go: PreStep, ApplyCachedImpulse, ApplyImpulse", "body.go: UpdateVelocity, BodyUpdatePosition"]}
{"id": "C69", "title": "Position errors decay at the configured rate", "statement": "Two overlapping balls at rest are pushed apart without gaining velocity: an overlap up to CollisionSlop stays, a larger one approaches the slop as CollisionBias to the power of the time. The phase error of a gear joint, and the distance of two bodies pivoted at their centres of gravity, go to zero as ErrorBias to the power of the time as long as the joint stays below its maximal force and bias. Neither depends on the length of the steps or the number of iterations.", "quantifier": "all balls, masses, radii, slops, rates, time steps, iteration counts, numbers of steps; for the joints also all gravities, dampings and velocities", "why_tests_cant": "A test sees things come right eventually; a rate applied per step instead of per second, or once per iteration, looks the same at one frame rate.", "anchors": ["space.go: Step", "arbiter.go: PreStep, ApplyImpulse, applyBiasImpulses", "gear_joint.go, pivot_joint.go: PreStep, ApplyImpulse", "constraint.go: biasCoef", "body.go: BodyUpdatePosition", "collision.go: circleToCircle"]}
{"id": "C70", "title": "Parts of a world that do not touch do not influence each other", "statement": "If no contact or joint ever links a set of bodies to the others, then whatever the others are and do, the bodies of the set, their contacts, joints and impulses are after any number of steps bit for bit what they are with the others removed. Over the reals this also holds when the set shares static or kinematic bodies with the others.", "quantifier": "all worlds, sets of bodies, joints of all kinds, collision phases that test pairs, settings per step, numbers of steps; any arithmetic", "why_tests_cant": "Order and iteration effects leak through shared state (a shared index, a shared body, a stale cache) only in scenes a test does not build; bit equality is not compared.", "anchors": ["space.go: Step", "arbiter.go: PreStep, ApplyCachedImpulse, ApplyImpulse", "all joints: PreStep, ApplyCachedImpulse, ApplyImpulse", "body.go: UpdateVelocity, BodyUpdatePosition"]}
{"id": "C71", "title": "The motion does not depend on the origin or on a uniformly moving observer", "statement": "Two worlds that differ by a shift of all bodies differ by the same shift after any number of steps, with the same contacts, joints and impulses. A set of moving bodies that touches nothing else, set off with an additional common velocity, without damping moves as before plus the path of that velocity.", "quantifier": "all worlds, joints of all kinds, gravities, settings per step, numbers of steps, shifts, velocities; shapes of all kinds with coordinates up to 2^500", "why_tests_cant": "Tests are built around one origin and bodies at rest; a point used where a vector is meant, or an absolute velocity where a relative one is, vanishes at the origin and at rest.", "anchors": ["space.go: Step", "arbiter.go: Update, PreStep, ApplyCachedImpulse, ApplyImpulse", "all joints: PreStep, ApplyCachedImpulse, ApplyImpulse", "body.go: UpdateVelocity, BodyUpdatePosition", "collision.go: Collide and all it calls", "circle.go, segment.go, polyshape.go: CacheData"]}
{"id": "C72", "title": "Joints work off their error and never past it", "statement": "A joint that stays below its maximal force leaves its bodies with a rate that takes its error (distance of the anchors, distance from the allowed range, phase, angle beyond the limit or behind the tooth) towards zero: never faster than MaxBias, never past zero, and exactly so that the part ErrorBias^dt is left when MaxBias allows it. A ratchet turned the free way falls into the last tooth passed. A groove joint does not push along the groove, and at an end only inwards. A contact between balls that stays inside the friction cone ends without sliding and with the bouncing speed. Contacts start a step with the force they ended the last one with.", "quantifier": "all bodies, anchors, limits, masses, velocities, biases and time steps; joints of all kinds that have an error", "why_tests_cant": "An inverted sign or a missing clamp shows as a joint that slowly drifts or overshoots in some direction only; tests check one direction, with tolerances.", "anchors": ["pivot_joint.go, pin_joint.go, slide_joint.go, groove_joint.go, gear_joint.go, rotary_limit_joint.go, ratchet_joint.go: PreStep, ApplyImpulse", "arbiter.go: PreStep, ApplyCachedImpulse, ApplyImpulse, TotalImpulse", "space.go: Step"]}
{"id": "C73", "title": "Changing a joint wakes its bodies and takes effect", "statement": "SetMaxForce, SetMaxBias, SetErrorBias and SetCollideBodies wake the sleeping groups of both bodies of the joint and no other body. After SetCollideBodies two bodies are kept from colliding exactly if some joint of the space between them says so, the changed joint by its new value, and a joint of the space is among those solved in the next step.", "quantifier": "all spaces reached by any valid sequence of operations, locked or not, all joints and values", "why_tests_cant": "Needs joints between sleeping bodies of different groups; tests change joints before the first step.", "anchors": ["constraint.go: ActivateBodies, SetMaxForce, SetMaxBias, SetErrorBias, SetCollideBodies", "body.go: Activate", "space.go: Activate, QueryRejectConstraints"]}
{"id": "C74", "title": "Forces and impulses at points obey mechanics", "statement": "ApplyImpulseAtWorldPoint changes the kinetic energy by impulse times mean velocity of the point hit, never moves that point against the impulse, and is reciprocal between two points. A force applied before a step gives the velocities that the impulse force times dt gives after it. The local forms take vector and point in the coordinates of the body. SetMass and SetMoment keep mass and inverse mass reciprocal and change nothing else. A body made static or kinematic has that type, stands still and has zero inverse mass and moment.", "quantifier": "all bodies in any state, all forces, impulses, points, gravities, dampings, time steps, masses", "why_tests_cant": "Tests apply forces at the centre of unrotated bodies, where arm, sign of the torque and rotation of the vector do not matter.", "anchors": ["body.go: ApplyForceAtWorldPoint, ApplyForceAtLocalPoint, ApplyImpulseAtWorldPoint, ApplyImpulseAtLocalPoint, SetMass, SetMoment, SetType, KineticEnergy, VelocityAtWorldPoint, UpdateVelocity", "arbiter.go: applyImpulse"]}
