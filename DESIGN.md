# Formal model of setanarut/cm in Rocq/Coq 8.16.1

## 1. Approach

`/repo` is a Go port of Chipmunk2D.  The model is a set of small, total Gallina
functions, one per Go function, each with a comment citing file and lines.  The
code is never run here: the link from Go to Gallina is by reading only.

### Numbers

Every arithmetic function of the model is written once, over a record `Num` of
number operations (`theories/Num.v`).  Two instances exist:

* `RNum`  - Coq's real numbers (idealised arithmetic, no rounding);
* `FNum`  - Coq's primitive binary64 floats (what Go's `float64` is, minus FMA
  contraction, which Go permits on some platforms but not on amd64).

Statements that only need ordering (bounding boxes, trees, clamps) are proved from an
explicit list of order laws (`NumOrd`), which is proved for both instances, so
they hold for real float64 code.  Geometry and solver identities are proved for
`RNum`; DESIGN section 4 lists them as "up to rounding".

### External code

`github.com/setanarut/vec` is not in the repository.  Its operations are
modelled by their usual definitions (`theories/Vec.v`), an assumption of the
trusted base: Add, Sub, Scale, Neg, Dot, Cross (x1*y2-y1*x2), Perp (-y,x),
ReversePerp (y,-x), RotateComplex, Lerp, Unit, Mag, MagSq, Distance, ...

### Pointers

Objects are identified by numbers.  Intrusive lists (arbiter threads, pair
threads, constraint lists) are modelled twice: as heaps with explicit
next/prev fields, and as the abstract lists they represent, with a refinement
proof.  Everything else uses plain lists in the order the Go slices have.

### Callbacks

User callbacks are universally quantified functions (oracles) over an arbitrary
user state, or programs in a small script language where re-entrancy matters
(post-step callbacks).

## 2. Plan per property

(model = what is modelled; proof = how)

| id | model | proof |
|----|-------|-------|
| C01 | `BB` functions over `Num` | lattice laws from `NumOrd`; instantiated to float64 |
| C02 | `bb_segment_query` over R | slab-method case analysis on the two axes |
| C03 | `bb_clamp`, `bb_wrap` over R | real arithmetic, floor based `Mod` |
| C04 | `Transform` over R | ring / field |
| C05 | body frame state machine over R | invariant over op lists |
| C06-C08 | hash set with chained bins, any key/hash | invariant + refinement to an association list, over op lists |
| C09-C13 | two linked BB trees with stamps and pair cache, over `Num` | invariants over op lists; float64 instance |
| C14 | same with shape ray-cast oracle | refuted by a concrete space |
| C15 | heap of pairs with threads | refinement to lists |
| C16-C18 | spatial hash | invariants; refutation for C18 |
| C19,C20 | 64-bit words as `N` with wrap | bitwise lemmas |
| C21 | handler table + arbiter update | case analysis over lookup |
| C22,C23 | arbiter cache state machine, event trace | simulation relation to an abstract touching automaton |
| C24 | ring of contact buffers | invariant over step lists |
| C25,C26 | lock/post-step machine with scripted callbacks | invariant; refutation for nested registration |
| C27,C28 | heap lists | refinement |
| C29,C30 | graph + flood fill + sleep lists | DFS invariant; induction |
| C31 | slice iteration while deleting | refutation + exact characterisation |
| C32-C34 | membership state machine | invariant over op lists; refutations |
| C35,C36 | mass functions over R | induction over lists, field |
| C37-C40 | solver functions over R / `NumOrd` | algebra; invariants over iteration lists |
| C41-C46 | narrow phase and queries over R | real geometry |
| C47 | quickhull over R with array slices | functional refinement, induction on size |
| C48,C49 | polylines as lists of lists | multiset induction |
| C50 | marching cells over an uninterpreted number type | edge counting |
| C51,C52 | arbiter/bodies over R | algebra |
| C53 | handler table with default callbacks | termination measure; refutation |
| C54 | GJK over R | separating axis / nearest point argument; float64 refutations |

## 3. Findings

### 3.1 Proved

Each line is a defect of the code, or a property that is false of it, with the theorem that exhibits a witness in the model.

| theorem | what happens | where |
|---|---|---|
| C05_set_transform_then_set_position_refuted | the exported SetTransform leaves position and angle behind; the next SetPosition jumps | body.go SetTransform |
| C14_thick_cast_refuted | a thick ray cast misses a shape it touches: tree boxes are tested with the thin segment | space.go SegmentQueryFirst, bb_tree.go SubtreeSegmentQuery |
| C16_reindex_refuted | SpaceHash.Reindex clears the table and rehashes nothing: queries find no shape | space_hash.go:105-110 |
| C18_edge_refuted, C18_corner_refuted | a ray going left or down from a cell edge, or up-left through a corner, skips cells | space_hash.go:248-319 |
| C22_zero_persistence_refuted | with CollisionPersistence = 0 the callbacks do not alternate | space.go, hashset_arbiter.go |
| C24_contacts_intact_refuted | contacts of a separated pair frozen asleep are overwritten | contact_buffer.go, hashset_arbiter.go |
| C25_registered_inside_refuted | a post-step callback registered by a post-step callback is accepted and never runs | space.go Unlock |
| C26_bbquery_refuted | BBQuery calls back with the space unlocked | space.go:933-950 |
| C26_mutation_refused_refuted | AddBody and others are not refused during a callback | space.go |
| C27_waking_callback_refuted, C27_double_push_refuted | waking a body from a collision callback threads an arbiter twice and loses another | space.go Step, body.go PushArbiter |
| C28_self_joint_refuted | a constraint of a body with itself cannot be removed | constraint.go Next, body.go filterConstraints |
| C28_hinge_lost_refuted | SetType on a static body drops the hinge of a sleeping one from its list | body.go SetType |
| C29_ground_freed_refuted | the same makes ProcessComponents panic ("inconsistency") | space.go ProcessComponents |
| C31_set_gravity_refuted | SetGravity wakes every other sleeping group only | space.go:143-150 |
| C33_remove_with_shapes_refuted | RemoveBodyWithShapes leaves half of the shapes | space.go RemoveBodyWithShapes |
| C34_set_type_sleeping_refuted, C34_set_type_two_places_refuted | SetType on a sleeping body leaves it in two lists or panics | body.go:138-216 |
| C36_circle2_refuted | MomentForCircle2 is four times the moment of the circle | shape_factory.go |
| C36_moment_offset_refuted | MomentForPoly ignores the offset for two vertices | shape_factory.go |
| C36_area_sign_refuted | AreaForPoly is positive for the winding its comment calls negative | shape_factory.go |
| C37_gear_angular_momentum_refuted | gear joints change the total angular momentum | gear_joint.go |
| C39_spring_limit_refuted | damped springs ignore maxForce | damped_spring.go, damped_rotary_spring.go |
| C39_rotary_spring_report_refuted | DampedRotarySpring.GetImpulse reports another impulse than it applies | damped_rotary_spring.go |
| C40_friction_contact_refuted | with friction, one contact iteration does not leave the target normal velocity | arbiter.go ApplyImpulse |
| C41_swap_refuted | concentric circles have normal (1,0) in both orders | collision.go CircleToCircle |
| C42_rounded_refuted | a circle overlapping a rounded polygon is reported with positive distance | collision.go CircleToPoly |
| C42_swapped_refuted | swapped shapes flip the sign of the distance | collision.go ShapesCollideInfo |
| C44_*_refuted | NaN distances or points at circle centres, on polygon boundaries, for degenerate segments; no surface point on the middle line of a thick segment | circle.go, polyshape.go, segment.go PointQuery |
| C45_start_inside_refuted, C45_segment_late_refuted, C45_segment_lost_refuted | ray casts starting inside a shape report Point = end; casts at a capsule from beside its end report a late hit or none | shape.go, segment.go SegmentQuery |
| C47_strictly_convex_refuted | convexHull may keep collinear vertices | polyshape.go:186-298 |
| C49_closed_refuted, C49_panic_refuted, C49_single_refuted | SimplifyVertexes drops or doubles vertices of closed lines; SimplifyCurves panics when two chord ends are close | polyline.go |
| C50_panic_refuted | MarchCells panics with no columns and two rows | utils/march/march.go |
| C51_cached_write_back_refuted | writing a contact set back to a cached arbiter panics | arbiter.go ContactPointSet |
| C53_dispatch_terminates_refuted | a handler registered for the wildcard type with AddCollisionHandler recurses for ever | arbiter.go DefaultBegin, space.go |
| C54_phantom_refuted, C54_collinear_refuted, C54_normal_refuted | GJK reports distance 0 or a wrong normal when the nearest edge is collinear with the origin | collision.go GJKRecurse |
| C55_waking_callback_refuted, C55_group_skipped_refuted | EachBody and EachDynamicBody skip sleeping bodies, or meet one twice, when the callback wakes a body | space.go EachBody, body.go Activate |
| C55_locked_refuted | EachBody called from a callback misses bodies woken since the space was locked | space.go EachBody |
| C55_each_constraint_all_refuted | EachConstraint leaves out the constraints of sleeping bodies | space.go EachConstraint |
| C57_rejoined_pair_pulls_refuted | a pair that meets again while its arbiter is cached carries impulses that are not applied but are taken back: the contact pulls | arbiter.go Update, ApplyCachedImpulse |
| C57_shrinking_step_pulls_refuted | with a shrinking time step the contact pulls | arbiter.go ApplyCachedImpulse |
| C59_last_sensor_refuted | ShapeQuery returns false although a solid shape was hit, when the last hit is a sensor | space.go:1051 |
| C59_far_hit_refuted | ShapeQuery reports a shape whose box does not meet the query's, if its fat tree box does and GJK reports a phantom contact | space.go ShapeQuery, collision.go |
| C60_set_verts_refuted | PolyShape.SetVerts leaves area, moment and centre of gravity of the shape, and so the body, as they were | polyshape.go:150-162 |
| C60_massless_refuted | taking the last mass away (SetMass(0), RemoveShape) leaves a dynamic body with mass 0 and infinite inverses | body.go:230-258 |
| C60_set_type_refuted | SetType(Static) and SetType(Dynamic) lose the mass given to NewBody: mass 0 and an infinite inverse | body.go:138-164 |
| C61_immovable_refuted | a pivot between two static or kinematic bodies: the tensor is inverted with determinant 0 and both velocities become NaN | pivot_joint.go:45-82, everything.go:270-301 |
| C61_immovable_pin_refuted | a pin between two immovable bodies divides by 0; clamp turns the NaN into -maxForce dt and Impulse() reports MaxFloat64 dt | pin_joint.go:46-87, everything.go:244-247, 307-313 |
| C40_groove_refuted | grooveConstrain projects the impulse on the groove normal after inverting the full tensor, so when the anchor's axes are coupled the velocity across the groove never reaches its target | groove_joint.go:70-96 |
| C62_groove_refuted | for the same reason a groove joint that was satisfied gives its body energy | groove_joint.go:70-96 |
| C62_pivot_limit_refuted | a pivot cut to its force limit by scaling the accumulated impulse can add energy | pivot_joint.go:66-82 |
| C62_friction_release_refuted | friction carried over is released in full when the normal impulse drops, adding energy | arbiter.go:117-157 |
| C65_time_step_refuted | TotalImpulse reports the whole carried impulse when the time step changed, though only dt/prevDT of it was applied | arbiter.go:105-115, 405-418 |
| C65_damped_spring_refuted | the force of a damped spring is applied before the velocities are damped, so a damped space weakens it and GetImpulse reports too much | damped_spring.go:41-70, space.go:583-602 |
| C66_flags_refuted | DrawSpace ignores the Flags of the drawer: a drawer that asks for nothing still gets everything | idrawer.go:164-195 |
| C66_sleeping_refuted | joints and contacts of sleeping bodies are not drawn, though their shapes are | idrawer.go:164-195, space.go constraints |
| C66_short_spring_refuted | a spring whose anchors coincide is drawn through points that are not numbers | idrawer.go:68-84, 129-150 |
| C66_moved_refuted | after SetPosition a shape is drawn where it was until the next step or update | idrawer.go:38-66, body.go:283-287 |
| C67_kinetic_energy_refuted | KineticEnergy returns m v^2 + i w^2, twice the kinetic energy | body.go:444-456 |
| C68_damped_spring_refuted | the impulse of a spring is applied before the velocities are damped, gravity after: with damping of the space a weight on a spring does not rest where the force of the spring equals its weight | space.go:583-602, damped_spring.go:41-70 |
| C69_longer_step_refuted | the velocity that corrects a joint is error × rate / dt of this step, and is applied over the next one: when a longer step follows it overshoots (out of phase by 1, then by −3) | gear_joint.go:39-42, body.go:634-641 |
| C70_floats_on_ground_refuted | `applyImpulse` adds impulse × massInverse to static bodies too: an impulse that overflows to infinity times 0 makes the velocity of the static body NaN, and every other body that touches it gets a NaN velocity in the same step | arbiter.go:322-332 |
| C71_damped_boost_refuted | damping slows bodies down relative to the space, so a world in uniform motion does not behave as the one at rest | body.go:308-323 |
| C71_floats_origin_refuted | with floats a body at 2^53 with velocity 1 stays where it is, one at the origin moves | body.go:634-641 |
| C72_variable_step_impulse_refuted | cached impulses are applied scaled by dt/prevDt but stored unscaled: after a step of another length TotalImpulse (and the friction limit) is not that of the step | arbiter.go:105-115, 405-418 |
| C04_scale_in_place_refuted | Transform.Scale multiplies the diagonal only: a quarter turn scaled by 2 still maps points as before | transform.go:272-276 |

### 3.2 Noticed while reading, not proved

* BBTree.Reindex always panics; SetStaticBody always panics; the static body of NewSpace has a nil Space.
* Removing an absent shape or constraint dereferences nil; adding a shape twice makes two leaves.
* ShapeQuery moves the box of a shape without reindexing it.
* PostSolveFunc is called with the handler instead of its UserData (space.go:642).
* DefaultBegin and DefaultPreSolve do not call the second wildcard handler when the first returns false.
* AddShape to a body whose other shapes were attached but not added panics when the body wakes.
* Segment.SetEndpoints computes the normal with the opposite turn of NewSegmentShape.
* WrapVect maps onto the half-open box without its left side; nextPrime fails past its last entry.
* A vertical ray with a subnormal horizontal offset leaves its column in SpaceHash.SegmentQuery.
* Queries of a SpaceHash from inside a query callback share one stamp.

## 4. Trusted base

1. Coq 8.16.1: its kernel, including the virtual machine (`vm_compute` is used for concrete examples) and primitive floats and integers.
2. The axioms of the standard library listed per theorem below.  The model and its proofs add none.  Flocq is used for the relation of primitive floats to reals; its theorems bring in no axiom of their own.
3. The reading of the Go code into Gallina, helped by the citations on every definition.
4. The definition of the external `vec` package (Vec.v) and of Go's `math` functions: Sqrt, Abs, Min, Max, Floor, Mod as usual; Sin, Cos, Acos, Atan2, Pow, Exp as Coq's real functions over R and as parameters otherwise.
5. The statements: the vocabulary in the `*Spec.v` files and in the theorem statements of the `*Props.v` files.

### 4.1 What the numbers are

Theorems quantified over `Num` (with or without `NumOrd`) hold for float64 and for the reals.  Theorems about `RNum` are about exact arithmetic: rounding is not covered.  Theorems and witnesses about `FNum` are about binary64 with round-to-nearest; a Go compiler that fuses x*y+z differs.  Integers of Go (stamps, ids, counts) are unbounded; HashValue arithmetic is 64 bit where it matters (C20, hash sets).  `infinity` is math.MaxFloat64 in FNum and an arbitrary bound where the reals need one.

### 4.2 Simplifications

* BBTree.v keeps trees as values and all pairs in one list; BBTreePtr.v has the pointers and C15 proves both do the same.  `leaves` is a list, the order of HashSet.Each is an arbitrary permutation.
* SpaceHash.v: sync.Pool may return anything it holds or a fresh object; conversion of float64 to int is an oracle outside 2^62.
* Callbacks of tree and hash queries do not change the index.
* Space.v (C27-C34) tracks lists, indexes, contact graph and sleeping; the collision results, velocities and callbacks of each step are inputs.  Rules for callers are `valid` in SpaceSpec.v.
* Collide.v (C22-C24, C51) tracks one step's arbiter updates, cache and contact buffers; which shapes touch is an input.
* PostStep.v and Dispatch.v take callbacks as programs in a small script language.
* Solver.v: one arbiter or joint at a time, bodies as mass, moment, position, velocities.  Default velocity and position functions only.
* Narrow.v: GJK/EPA without the cached collision id; `tiny` epsilons are a parameter >= 0 over the reals, 0 in C42_circle_polygon_partial.
* Polyline.v: math.Cos is a parameter; lines are values, so slices sharing memory are not represented.
* SetType in Space.v sets the idle time to 0 for every type (the code: infinity for static bodies).

### 4.3 Functions modelled and not modelled

From the citations in the model files.  String methods, drawing backends (implementations of IDrawer) and tests are not modelled.

| Go file | cited by the model | not modelled |
|---|---|---|
| arbiter.go | Init, Next, Unthread, unthreadHelper, ThreadForBody, ApplyCachedImpulse, ApplyImpulse, IsFirstContact, PreStep, Update, Ignore, CallWildcardBeginA, CallWildcardBeginB, CallWildcardPreSolveA, CallWildcardPreSolveB, CallWildcardPostSolveA, CallWildcardPostSolveB, CallWildcardSeparateA, CallWildcardSeparateB, applyImpulses, applyImpulse, applyBiasImpulses, relativeVelocity, AlwaysCollide, DoNothing, DefaultBegin, DefaultPreSolve, DefaultPostSolve, DefaultSeparate, TotalImpulse, Count, Shapes, Bodies, Normal, ContactPointSet, SetContactPointSet |  |
| bb.go | NewBB, NewBBForExtents, NewBBForCircle, Intersects, Contains, ContainsVect, Merge, Expand, Center, Area, MergedArea, SegmentQuery, IntersectsSegment, ClampVect, WrapVect, Offset, Proximity | String |
| bb_tree.go | Unlink, NewBBTree, Insert, IncrementStamp, LeafAddPairs, PairInsert, PairFromPool, RecyclePair, SubtreeInsert, SubtreeRemove, ReplaceChild, Remove, ReindexObject, ReindexQuery, LeafUpdate, PairsClear, Query, SegmentQuery, GetBB, NewNode, NewLeaf, NodeFromPool, RecycleNode, GetMasterTree, NodeSetA, NodeSetB, MarkLeaf, MarkLeafQuery, Other, IsLeaf, SubtreeQuery, MarkSubtree, SubtreeSegmentQuery | Count, Each, Contains, Reindex, VoidQueryFunc, leafSetEql |
| body.go | NewBody, SetAngle, SetMoment, SetMass, IdleTime, SetType, Type, AccumulateMassFromShapes, Rotation, Position, SetPosition, SetVelocity, SetVelocityVector, UpdateVelocity, SetForce, SetTorque, SetAngularVelocity, SetTransform, Activate, ActivateStatic, IsSleeping, AttachShape, KineticEnergy, PushArbiter, ComponentAdd, WorldToLocal, LocalToWorld, ApplyForceAtWorldPoint, ApplyForceAtLocalPoint, ApplyImpulseAtWorldPoint, ApplyImpulseAtLocalPoint, VelocityAtLocalPoint, VelocityAtWorldPoint, RemoveConstraint, RemoveShape, EachArbiter, EachShape, EachConstraint, filterConstraints, BodyUpdateVelocity, BodyUpdatePosition | String, ShapeAtIndex, NewStaticBody, NewKinematicBody, Moment, Mass, CenterOfGravity, Angle, Velocity, Force, Torque, AngularVelocity, Transform, ComponentRoot, RemoveShapeAtIndex, SetVelocityUpdateFunc, SetPositionUpdateFunc |
| circle.go | CacheData, PointQuery, SegmentQuery, CircleShapeMassInfo, SetRadius, CircleSegmentQuery | Radius, TransformC |
| collision.go | NewSupportPoint, PolySupportPoint, SegmentSupportPoint, CircleSupportPoint, PolySupportPointIndex, Support, CircleToCircle, CircleToSegment, SegmentToSegment, CircleToPoly, SegmentToPoly, PolyToPoly, NewMinkowskiPoint, ClosestPoints, SupportEdgeForSegment, SupportEdgeForPoly, ContactPoints, HashPair, GJK, GJKRecurse, EPA, EPARecurse, Collide, ShapesCollideInfo | CollisionError |
| constraint.go | NewConstraint, ActivateBodies, BodyA, BodyB, MaxForce, SetMaxForce, MaxBias, SetMaxBias, ErrorBias, SetErrorBias, Next, SetCollideBodies |  |
| contact_buffer.go | InitHeader | NewContactBuffer |
| damped_rotary_spring.go | defaultSpringTorque, NewDampedRotarySpring, PreStep, ApplyCachedImpulse, ApplyImpulse, GetImpulse |  |
| damped_spring.go | NewDampedSpring, PreStep, ApplyCachedImpulse, ApplyImpulse, GetImpulse, DefaultSpringForce |  |
| everything.go | Clone, PushContact, Reject, Transform, kScalarBody, clamp01, kScalar, normalRelativeVelocity, kTensor, biasCoef, clamp, lerpT, closestDist, closestT, closestPointOnSegment, checkAxis, pointGreater | DebugInfo |
| gear_joint.go | NewGearJoint, PreStep, ApplyCachedImpulse, ApplyImpulse, GetImpulse |  |
| groove_joint.go | NewGrooveJoint, PreStep, ApplyCachedImpulse, grooveConstrain, ApplyImpulse, GetImpulse |  |
| hashset.go | NewHashSet, resize, Count, Insert, Remove, Find, Each, Filter, recycle, getUnusedBin, nextPrime |  |
| hashset_arbiter.go | SpaceArbiterSetFilter, CachedArbitersFilter |  |
| idrawer.go | DrawShape, DrawConstraint, DrawSpace |  |
| pin_joint.go | NewPinJoint, PreStep, ApplyCachedImpulse, ApplyImpulse, GetImpulse |  |
| pivot_joint.go | NewPivotJoint, NewPivotJoint2, PreStep, ApplyCachedImpulse, ApplyImpulse, GetImpulse |  |
| polyline.go | Sharpness, IsClosed, IsShort, SimplifyVertexes, DouglasPeucker, SimplifyCurves, FindEnds, FindStarts, Join, PolyLineCollectSegment, next | Push, Enqueue, Push |
| polyshape.go | CacheData, PointQuery, SegmentQuery, SetVerts, SetVertsUnsafe, SetVertsRaw, convexHull, loopIndexes, QHullReduce, QHullPartition, PolyShapeMassInfo | Count, Vert, TransformVert |
| ratchet_joint.go | NewRatchetJoint, PreStep, ApplyCachedImpulse, ApplyImpulse, GetImpulse |  |
| rotary_limit_joint.go | NewRotaryLimitJoint, PreStep, ApplyCachedImpulse, ApplyImpulse, GetImpulse |  |
| segment.go | CacheData, PointQuery, SegmentQuery, SetRadius, Radius, TransformA, TransformB, SetEndpoints, NewSegmentMassInfo | Normal, A, B |
| shape.go | Order, MassInfo, Mass, SetMass, Density, SetDensity, SetBody, Moment, Area, CenterOfGravity, CacheBB, Update, Point, PointQuery, SegmentQuery | NewShape, String, SetSensor, HashId, SetHashId, SetCollisionType, SetFriction, SetElasticity, SetShapeFilter |
| shape_factory.go | NewSegmentShape, NewBoxShape, NewBoxShape2, NewCircleShape, NewPolyShape, NewPolyShapeRaw, MomentForBox, MomentForBox2, MomentForCircle, MomentForCircle2, MomentForSegment, MomentForPoly, AreaForCircle, AreaForSegment, AreaForPoly, CentroidForPoly |  |
| simple_motor.go | NewSimpleMotor, PreStep, ApplyCachedImpulse, ApplyImpulse, GetImpulse |  |
| slide_joint.go | NewSlideJoint, PreStep, ApplyCachedImpulse, ApplyImpulse, GetImpulse |  |
| space.go | NewSpace, DynamicBodyCount, StaticBodyCount, SetGravity, Activate, Deactivate, AddShape, RemoveShape, AddBody, AddBodyWithShapes, ReindexShape, RemoveBody, RemoveBodyWithShapes, AddConstraint, RemoveConstraint, FilterArbiters, ContainsConstraint, ContainsShape, ContainsBody, PushFreshContactBuffer, ContactBufferGetArray, ProcessComponents, Step, Lock, IsLocked, Unlock, UncacheArbiter, PushContacts, PopContacts, LookupHandler, AddCollisionHandler, AddCollisionHandler2, AddWildcardCollisionHandler, UseWildcardDefaultHandler, UseSpatialHash, EachBody, EachStaticBody, EachDynamicBody, EachStaticShape, EachDynamicShape, DynamicShapeCount, StaticShapeCount, ShapeCount, EachShape, EachConstraint, PointQueryNearest, bbQuery, BBQuery, SegmentQuery, SegmentQueryFirst, TimeStep, PostStepCallback, AddPostStepCallback, ShapeQuery, PostStepDoNothing, SpaceCollideShapesFunc, QueryReject, QueryRejectConstraints, ComponentActive, FloodFillComponent, NearestPointQueryNearest, segmentQuery, queryFirst, arbiterSetEql | SetStaticBody, SliceForBodyType, ArbiterNext, Contains |
| space_hash.go | NewSpaceHash, hashHandle, Count, Each, Contains, Insert, Remove, Reindex, ReindexObject, removeOrphanedHandles, queryHelper, floor, ReindexQuery, Query, segmentQueryHelper, SegmentQuery, containsHandle, hashFunc, retain, release, recycleBin, clearTableCell, clearTable, getEmptyBin | Init |
| spatial_index.go | NewSpatialIndex, GetTree, GetRootIfTree, CollideStatic | ShapeGetBB |
| transform.go | NewTransformIdentity, NewTransform, NewTransformTranspose, Inverse, Mult, NewTransformTranslate, NewTransformScale, NewTransformRotate, NewTransformRigid, NewTransformRigidInverse, Apply, ApplyVector, BB, Wrap, Ortho, BoneScale, AxialScale, Scale |  |
| utils/march/march.go | MarchCells, Seg, Midlerp, MarchCellSoft, MarchSoft, Segs, MarchCellHard, MarchHard, lerp |  |

### 4.4 Axioms per theorem (Print Assumptions)

**None (closed under the global context)**

C01_merge_is_least_upper_bound, C01_contains_preorder, C01_contains_is_subset, C01_intersects_iff_common_point, C01_intersects_symmetric, C01_contains_vect_spec, C01_expand_is_least, C01_merged_area, C03_clamp_in_box, C03_clamp_fixes_inside, C06_hashset_refines_finite_map, C07_each_and_filter_exactly_once, C08_load_factor_below_one, C08_no_panic_below_limit, C09_tree_invariant, C09_membership, C10_fat_box_covers, C10_indexed_covers, C10_left_alone, C11_query_exact, C11_query_complete, C12_pairs_exactly_once, C12_no_overlap_missed, C12_no_static_overlap_missed, C13_at_most_once, C15_runs, C15_same_as_values, C15_same_queries, C15_nodes_apart, C15_pair_lists, C15_in_two_lists, C15_pairs_apart, C15_clear, C15_insert, C16_total, C16_query, C16_pairs, C16_static, C17_counts, C19_reject_symmetric, C19_same_group_rejected, C19_accept_iff, C19_filter_all_none, C20_hash_pair_symmetric, C20_lookup_order_independent, C20_arbiter_cache_order_independent, C20_uncache_order_independent, C21_right_handler, C21_user_callback, C21_wildcard_order, C21_reregister, C22_callbacks, C22_begin_separate_alternate, C22_edges, C22_zero_persistence_refuted, C23_ignored_from_begin, C23_ignored_from_presolve, C23_solved_exactly_if, C23_sensor_never_solved, C23_postsolve_exactly_solved, C24_contacts_intact_partial, C24_handed_out_fresh_partial, C24_buffer_size, C24_contacts_intact_refuted, C25_in_order, C25_outermost_unlock, C25_operations_flush, C25_runs_unlocked, C25_registration, C25_registered_inside_refuted, C26_balanced, C26_nesting, C26_visit_refused, C26_step_refused, C26_outside_allowed, C26_called_locked_partial, C26_bbquery_refuted, C26_mutation_refused_refuted, C27_contact_lists, C27_active_arbiters, C27_unthread, C27_pointer_lists, C27_pointer_unthread, C27_double_push_refuted, C28_constraint_lists, C28_solved_constraints, C28_query_reject, C28_query_reject_symmetric, C28_pointer_lists, C28_self_joint_refuted, C29_falls_asleep, C29_stays_awake, C29_idle_times, C29_group_closed, C29_group_list, C29_no_inconsistency, C30_wakes_group, C30_one_place, C30_restores, C30_unlock, C31_set_gravity_exact, C31_set_gravity_partial, C32_contains, C32_runs, C32_one_index, C32_ids_distinct, C32_ids_not_reused, C32_shapes_of_body, C33_remove_with_shapes_partial, C33_add_with_shapes, C34_set_type_partial, C38_contact_impulse_bounds, C41_kinds_swapped, C42_segments_polygons, C43_epa_ends, C47_total, C48_segments, C49_vertexes_partial, C49_vertexes_exact, C49_vertexes_total, C49_curves_total_partial, C50_ends_soft, C53_dispatch_terminates_refuted, C53_dispatch_terminates, C55_each_body, C55_each_dynamic_body, C55_each_static_body, C55_each_shape, C55_each_static_shape, C55_each_dynamic_shape, C55_each_constraint, C55_each_body_any, C55_remove_each_constraint, C56_impulses_carried, C56_no_stale_memory, C58_pairs_examined, C58_reject, C58_reject_symmetric, C59_bb_query, C59_shape_query_calls, C59_shape_query_result, C59_shape_query_result_sound, C64_switch, C64_each, C64_counts, C64_pairs_examined, C64_bb_query, C66_space, C66_flags_ignored, C67_fast_awake, C70_apart, C70_alone, C73_setters_wake, C73_set_collide_bodies

**`ClassicalDedekindReals.sig_forall_dec`, `ClassicalDedekindReals.sig_not_dec`, `FunctionalExtensionality.functional_extensionality_dep`**

C01_proximity_center_distance, C01_offset_moves, C01_circle_box_least, C01_area_grows, C02_segment_query_first_entry, C02_intersects_segment_iff, C03_clamp_nearest, C03_wrap_modular, C04_scale, C04_scale_in_place_partial, C04_scale_in_place_refuted, C04_mult_is_composition, C04_inverse_two_sided, C04_rigid_inverse, C04_rotations_add, C04_bb_is_tight_hull, C04_bone_scale, C04_axial_scale, C04_ortho, C04_wrap_conjugates, C05_frame_is_rigid, C05_set_position, C05_set_angle_rotates_about_cog, C05_accumulate_keeps_frame, C05_velocity_queries_agree, C05_set_transform_then_set_position_refuted, C13_first_hit, C13_all_hits, C14_thin_cast_partial, C14_thin_found_partial, C16_query_real, C16_pairs_real, C18_ray_partial, C18_cells_partial, C35_mass_from_shapes, C35_order_irrelevant, C36_area_translation, C36_centroid_translation, C36_moment_offset, C36_moment_offset_refuted, C36_moment_parallel_axis, C36_poly_mass_info, C36_area_start, C36_centroid_start, C36_moment_start, C36_area_reversed, C36_centroid_reversed, C36_area_cut, C36_centroid_cut, C36_moment_cut, C36_triangle_area, C36_triangle_centroid, C36_triangle_moment, C36_box_area, C36_box_centroid, C36_box_moment, C36_centred_box_moment, C36_area_sign_refuted, C36_disc_area, C36_disc_moment, C36_ring_moment, C36_circle_parallel_axis, C36_circle_mass, C36_circle2_diameter, C36_circle2_refuted, C36_circle2_exact, C36_segment_moment, C36_segment_area, C36_point_area, C37_angular_momentum_common_point, C37_gear_weighted_momentum, C39_one_iteration_within_limit, C39_ratchet_direction, C40_motor_exact, C40_frictionless_contact_exact, C40_friction_contact_refuted, C41_circles, C41_circle_segment, C41_circles_swapped, C42_circle_polygon_partial, C43_gjk_ends_real, C43_collide_real, C44_circle, C44_segment, C44_polygon, C44_nearest, C44_segment_middle_refuted, C45_circle, C45_segment_partial, C45_polygon_partial, C46_box_contains_shape, C46_box_contains_image, C46_circle_made, C46_segment_made, C46_polygon_made, C47_hull, C47_strictly_convex_partial, C48_segments_exact, C49_curves_open_partial, C49_curves_closed_partial, C50_balanced_soft, C50_balanced_hard, C50_once_soft, C50_interpolated, C50_sides_soft, C50_contours, C51_round_trip, C51_wrong_count_refused, C51_cached_write_back_refuted, C52_kinematic_velocity_untouched, C52_velocity_integration, C52_position_integration, C52_rest_keeps_transform, C54_gjk_partial, C54_contact_partial, C56_contact_point_set, C56_surface_velocity, C56_update_either_order, C56_reports_either_order, C57_normal_speed, C57_pushes, C57_new_pair_fresh, C57_rejoined_pair_pulls_refuted, C57_shrinking_step_pulls_refuted, C59_shape_query_circles, C60_mass_matches, C60_frame_stays, C60_info_matches, C60_set_mass, C60_density, C60_moments, C60_setters, C61_new_joints, C62_contact, C62_friction_release_refuted, C64_same_as_tree, C65_joint_impulse, C65_two_views, C66_shape, C66_joint, C66_contacts, C66_moved_refuted, C67_idle_time, C67_speed, C67_free_fall, C67_kinetic_energy, C67_kinetic_energy_refuted, C71_balls, C71_collide, C72_friction, C74_impulse_work, C74_impulse_pushes, C74_impulse_reciprocal, C74_force_is_impulse, C74_local_forms, C74_set_mass, C74_set_moment, C74_set_type_stops

**`ClassicalDedekindReals.sig_forall_dec`, `ClassicalDedekindReals.sig_not_dec`, `Classical_Prop.classic`, `FunctionalExtensionality.functional_extensionality_dep`**

C37_step_momentum, C37_infinite_mass_unmoved, C37_joint_angular_momentum, C37_gear_angular_momentum_refuted, C38_total_impulse_pushes, C39_impulse_within_limit, C39_spring_limit_refuted, C39_rotary_spring_report_refuted, C39_slide_satisfied_is_inert, C39_rotary_limit_satisfied_is_inert, C39_ratchet_satisfied_is_inert, C39_slide_direction, C39_rotary_limit_direction, C40_groove_exact, C40_groove_refuted, C40_pivot_exact, C40_pin_exact, C40_slide_exact, C40_gear_exact, C40_rotary_limit_exact, C40_ratchet_exact, C56_solve_either_order, C61_rest, C62_solve, C62_bounce, C62_spring, C62_rotary_spring, C62_groove_refuted, C62_pivot_limit_refuted, C63_spring_damping, C63_rotary_spring_damping, C65_momentum, C65_spin, C65_weight, C65_time_step, C65_time_step_refuted, C65_damped_spring_refuted, C68_equilibrium_persists, C68_damped_spring_refuted, C69_overlap_decays, C69_gear_decays, C69_pivot_decays, C69_longer_step_refuted, C70_apart_on_ground, C70_alone_on_ground, C71_origin, C71_boost, C71_shapes_origin, C71_damped_boost_refuted, C72_pivot, C72_pin, C72_slide, C72_gear, C72_rotary_limit, C72_ratchet, C72_ratchet_tooth, C72_groove, C72_warm_start, C72_variable_step_impulse_refuted

**`PrimFloat.abs`, `PrimFloat.add`, `PrimFloat.div`, `PrimFloat.eqb`, `PrimFloat.float`, `PrimFloat.leb`, `PrimFloat.ltb`, `PrimFloat.mul`, `PrimFloat.of_uint63`, `PrimFloat.opp`, `PrimFloat.sqrt`, `PrimFloat.sub`, `PrimInt63.int`, `PrimInt63.lor`, `PrimInt63.lsl`, `PrimInt63.sub`**

C27_waking_callback_refuted, C28_hinge_lost_refuted, C29_ground_freed_refuted, C31_set_gravity_refuted, C33_remove_with_shapes_refuted, C34_set_type_sleeping_refuted, C34_set_type_two_places_refuted, C41_swap_refuted, C42_swapped_refuted, C42_rounded_refuted, C44_circle_centre_refuted, C44_polygon_boundary_refuted, C44_segment_point_refuted, C45_start_inside_refuted, C45_segment_late_refuted, C45_segment_lost_refuted, C47_strictly_convex_refuted, C49_closed_refuted, C49_panic_refuted, C49_single_refuted, C50_panic_refuted, C54_phantom_refuted, C54_collinear_refuted, C54_normal_refuted, C55_waking_callback_refuted, C55_group_skipped_refuted, C55_locked_refuted, C55_each_constraint_all_refuted, C60_set_verts_refuted, C60_massless_refuted, C60_set_type_refuted, C61_immovable_refuted, C61_immovable_pin_refuted, C66_flags_refuted, C66_sleeping_refuted, C66_short_spring_refuted, C70_floats_on_ground_refuted, C71_floats_origin_refuted

**`FloatAxioms.Prim2SF_valid`, `PrimFloat.abs`, `PrimFloat.add`, `PrimFloat.div`, `PrimFloat.eqb`, `PrimFloat.float`, `PrimFloat.frshiftexp`, `PrimFloat.leb`, `PrimFloat.ltb`, `PrimFloat.mul`, `PrimFloat.normfr_mantissa`, `PrimFloat.of_uint63`, `PrimFloat.opp`, `PrimFloat.sqrt`, `PrimFloat.sub`, `PrimInt63.eqb`, `PrimInt63.int`, `PrimInt63.land`, `PrimInt63.lor`, `PrimInt63.lsl`, `PrimInt63.lsr`, `PrimInt63.sub`**

C16_reindex_refuted, C18_edge_refuted, C18_corner_refuted

**`ClassicalDedekindReals.sig_forall_dec`, `ClassicalDedekindReals.sig_not_dec`, `Classical_Prop.classic`, `FloatAxioms.Prim2SF_SF2Prim`, `FloatAxioms.Prim2SF_valid`, `FloatAxioms.SF2Prim_Prim2SF`, `FloatAxioms.eqb_spec`, `FloatAxioms.leb_spec`, `FunctionalExtensionality.functional_extensionality_dep`, `PrimFloat.abs`, `PrimFloat.add`, `PrimFloat.div`, `PrimFloat.eqb`, `PrimFloat.float`, `PrimFloat.frshiftexp`, `PrimFloat.ldshiftexp`, `PrimFloat.leb`, `PrimFloat.ltb`, `PrimFloat.mul`, `PrimFloat.normfr_mantissa`, `PrimFloat.of_uint63`, `PrimFloat.opp`, `PrimFloat.sqrt`, `PrimFloat.sub`, `PrimInt63.eqb`, `PrimInt63.int`, `PrimInt63.land`, `PrimInt63.lor`, `PrimInt63.lsl`, `PrimInt63.lsr`, `PrimInt63.sub`**

C48_joined, C50_balanced_soft_float, C50_balanced_hard_float, C50_once_soft_float, C50_once_hard_float, C50_contours_float

**`ClassicalDedekindReals.sig_forall_dec`, `ClassicalDedekindReals.sig_not_dec`, `Classical_Prop.classic`, `FloatAxioms.Prim2SF_SF2Prim`, `FloatAxioms.Prim2SF_valid`, `FloatAxioms.SF2Prim_Prim2SF`, `FloatAxioms.add_spec`, `FloatAxioms.eqb_spec`, `FloatAxioms.leb_spec`, `FloatAxioms.ltb_spec`, `FloatAxioms.mul_spec`, `FloatAxioms.sub_spec`, `FunctionalExtensionality.functional_extensionality_dep`, `PrimFloat.abs`, `PrimFloat.add`, `PrimFloat.div`, `PrimFloat.eqb`, `PrimFloat.float`, `PrimFloat.frshiftexp`, `PrimFloat.ldshiftexp`, `PrimFloat.leb`, `PrimFloat.ltb`, `PrimFloat.mul`, `PrimFloat.normfr_mantissa`, `PrimFloat.of_uint63`, `PrimFloat.opp`, `PrimFloat.sqrt`, `PrimFloat.sub`, `PrimInt63.eqb`, `PrimInt63.int`, `PrimInt63.land`, `PrimInt63.lor`, `PrimInt63.lsl`, `PrimInt63.lsr`, `PrimInt63.sub`**

C43_gjk_ends_float, C43_collide_float, C43_shapes_collide_float

**`ClassicalDedekindReals.sig_forall_dec`, `ClassicalDedekindReals.sig_not_dec`, `Classical_Prop.classic`, `FloatAxioms.Prim2SF_SF2Prim`, `FloatAxioms.Prim2SF_valid`, `FloatAxioms.SF2Prim_Prim2SF`, `FloatAxioms.abs_spec`, `FloatAxioms.div_spec`, `FloatAxioms.eqb_spec`, `FloatAxioms.leb_spec`, `FloatAxioms.ltb_spec`, `FloatAxioms.of_uint63_spec`, `FloatAxioms.opp_spec`, `FunctionalExtensionality.functional_extensionality_dep`, `PrimFloat.abs`, `PrimFloat.add`, `PrimFloat.div`, `PrimFloat.eqb`, `PrimFloat.float`, `PrimFloat.frshiftexp`, `PrimFloat.ldshiftexp`, `PrimFloat.leb`, `PrimFloat.ltb`, `PrimFloat.mul`, `PrimFloat.normfr_mantissa`, `PrimFloat.of_uint63`, `PrimFloat.opp`, `PrimFloat.sqrt`, `PrimFloat.sub`, `PrimInt63.add`, `PrimInt63.eqb`, `PrimInt63.int`, `PrimInt63.land`, `PrimInt63.leb`, `PrimInt63.lor`, `PrimInt63.lsl`, `PrimInt63.lsr`, `PrimInt63.ltb`, `PrimInt63.sub`, `Uint63.add_spec`, `Uint63.eqb_correct`, `Uint63.eqb_refl`, `Uint63.leb_spec`, `Uint63.lor_spec`, `Uint63.lsl_spec`, `Uint63.lsr_spec`, `Uint63.ltb_spec`, `Uint63.of_to_Z`, `Uint63.sub_spec`**

C16_float_grid

**`ClassicalDedekindReals.sig_forall_dec`, `ClassicalDedekindReals.sig_not_dec`, `Classical_Prop.classic`, `FloatAxioms.Prim2SF_SF2Prim`, `FloatAxioms.Prim2SF_valid`, `FloatAxioms.SF2Prim_Prim2SF`, `FloatAxioms.abs_spec`, `FloatAxioms.add_spec`, `FloatAxioms.div_spec`, `FloatAxioms.eqb_spec`, `FloatAxioms.leb_spec`, `FloatAxioms.ltb_spec`, `FloatAxioms.mul_spec`, `FloatAxioms.of_uint63_spec`, `FloatAxioms.opp_spec`, `FloatAxioms.sub_spec`, `FunctionalExtensionality.functional_extensionality_dep`, `PrimFloat.abs`, `PrimFloat.add`, `PrimFloat.div`, `PrimFloat.eqb`, `PrimFloat.float`, `PrimFloat.frshiftexp`, `PrimFloat.ldshiftexp`, `PrimFloat.leb`, `PrimFloat.ltb`, `PrimFloat.mul`, `PrimFloat.normfr_mantissa`, `PrimFloat.of_uint63`, `PrimFloat.opp`, `PrimFloat.sqrt`, `PrimFloat.sub`, `PrimInt63.add`, `PrimInt63.eqb`, `PrimInt63.int`, `PrimInt63.land`, `PrimInt63.leb`, `PrimInt63.lor`, `PrimInt63.lsl`, `PrimInt63.lsr`, `PrimInt63.ltb`, `PrimInt63.sub`, `Uint63.add_spec`, `Uint63.eqb_correct`, `Uint63.eqb_refl`, `Uint63.leb_spec`, `Uint63.lor_spec`, `Uint63.lsl_spec`, `Uint63.lsr_spec`, `Uint63.ltb_spec`, `Uint63.of_to_Z`, `Uint63.sub_spec`**

C01_float64_intersects_iff_common_point, C10_float64_fat_box_covers, C14_thick_cast_refuted, C59_last_sensor_refuted, C59_far_hit_refuted

PrimFloat.*, PrimInt63.* are the primitive types and operations; FloatAxioms.*, Uint63.* are their specifications in the standard library.
