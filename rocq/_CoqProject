-Q theories Verif

theories/Num.v
theories/NumReal.v
theories/NumFloat.v
theories/Vec.v
theories/BB.v
theories/BBProofs.v
theories/BBProps.v
theories/HashSet.v
theories/HashSetSpec.v
theories/HashSetProofs.v
theories/HashSetProps.v
theories/Filter.v
theories/FilterProofs.v
theories/FilterProps.v
theories/Transform.v
theories/TransformProofs.v
theories/TransformProps.v
theories/Body.v
theories/BodySpec.v
theories/BodyProofs.v
theories/BodyProps.v
theories/Solver.v
theories/SolverSpec.v
theories/SolverProofs.v
theories/SolverProofs2.v
theories/SolverProofs3.v
theories/SolverProofs4.v
theories/SolverProofs5.v
theories/SolverProofs6.v
theories/SolverProps.v
theories/Collide.v
theories/CollideSpec.v
theories/CollideProofs.v
theories/CollideProofs2.v
theories/CollideProofs3.v
theories/CollideProofs4.v
theories/CollideProps.v
theories/Dispatch.v
theories/DispatchSpec.v
theories/DispatchProofs.v
theories/DispatchProps.v
theories/PostStep.v
theories/PostStepSpec.v
theories/PostStepProofs.v
theories/PostStepProps.v
theories/BBTree.v
theories/BBTreeSpec.v
theories/BBTreeProofs.v
theories/BBTreeMark.v
theories/BBTreeInv.v
theories/BBTreeReindex.v
theories/BBTreeRay.v
theories/BBTreeMain.v
theories/BBTreeProps.v
theories/BBTreePtr.v
theories/BBTreePtrSpec.v
theories/BBTreePtrPairs.v
theories/BBTreePtrNodes.v
theories/BBTreePtrForest.v
theories/BBTreePtrFuel.v
theories/BBTreePtrMain.v
theories/BBTreePtrTop.v
theories/BBTreePtrEx.v
theories/BBTreePtrProps.v
theories/Space.v
theories/SpaceSpec.v
theories/SpaceInv.v
theories/SpaceMove.v
theories/SpaceWake.v
theories/SpaceActivate.v
theories/SpaceOps.v
theories/SpaceShapes.v
theories/SpaceCons.v
theories/SpaceType.v
theories/SpaceFlood.v
theories/SpaceSleep.v
theories/SpaceStep.v
theories/SpaceProcess.v
theories/SpaceMain.v
theories/SpaceMore.v
theories/SpaceRuns.v
theories/SpaceProps.v
theories/ThreadList.v
theories/ThreadListSpec.v
theories/ThreadListProofs.v
theories/ThreadListProps.v
theories/Mass.v
theories/MassProofs.v
theories/MassProps.v
theories/VecReal.v
theories/Shapes.v
theories/ShapesSpec.v
theories/ShapesPoint.v
theories/ShapesRay.v
theories/ShapesPoly.v
theories/ShapesPolyRay.v
theories/ShapesMain.v
theories/ShapesMade.v
theories/ShapesProps.v
theories/Narrow.v
theories/NarrowFloat.v
theories/NarrowTerm.v
theories/NarrowGjk.v
theories/NarrowCircle.v
theories/NarrowMain.v
theories/NarrowProps.v
theories/March.v
theories/MarchSpec.v
theories/MarchMain.v
theories/MarchGeom.v
theories/Polyline.v
theories/PolylineSpec.v
theories/PolylineMain.v
theories/MarchLines.v
theories/MarchProps.v
theories/PolylineSimple.v
theories/PolylineProps.v
theories/Hull.v
theories/HullSpec.v
theories/HullRefine.v
theories/HullGeom.v
theories/HullMain.v
theories/HullProps.v
theories/SpaceHash.v
theories/SpaceHashSpec.v
theories/SpaceHashInv.v
theories/SpaceHashOps.v
theories/SpaceHashQuery.v
theories/SpaceHashMain.v
theories/SpaceHashGrid.v
theories/SpaceHashWalk.v
theories/SpaceHashCases.v
theories/SpaceHashProps.v
theories/SpaceEach.v
theories/SpaceEachProofs.v
theories/SpaceEachProps.v
theories/Persist.v
theories/PersistSpec.v
theories/PersistProofs.v
theories/PersistProofs2.v
theories/PersistProps.v
theories/SpaceQuery.v
theories/SpaceQuerySpec.v
theories/SpaceQueryProofs.v
theories/SpaceQueryEx.v
theories/SpaceQueryProps.v
theories/ShapeMass.v
theories/ShapeMassSpec.v
theories/ShapeMassProofs.v
theories/ShapeMassEx.v
theories/ShapeMassProps.v
theories/Joints.v
theories/JointsSpec.v
theories/JointsProofs.v
theories/JointsEx.v
theories/JointsProps.v
theories/EnergySpec.v
theories/EnergyProofs.v
theories/EnergyProofs2.v
theories/EnergyEx.v
theories/EnergyProps.v
theories/HashUse.v
theories/HashUseSpec.v
theories/HashUseProofs.v
theories/HashUseEx.v
theories/HashUseProps.v
theories/ArbView.v
theories/ArbViewSpec.v
theories/ArbViewProofs.v
theories/ArbViewProofs2.v
theories/ArbViewEx.v
theories/ArbViewProps.v
theories/Draw.v
theories/DrawSpec.v
theories/DrawProofs.v
theories/DrawEx.v
theories/DrawProps.v
theories/Idle.v
theories/IdleSpec.v
theories/IdleProofs.v
theories/IdleEx.v
theories/IdleProps.v
theories/EquilSpec.v
theories/EquilProofs.v
theories/EquilProofs2.v
theories/EquilProofs3.v
theories/EquilEx.v
theories/EquilProps.v
theories/DecaySpec.v
theories/DecayProofs.v
theories/DecayProofs2.v
theories/DecayEx.v
theories/DecayProps.v
theories/ApartSpec.v
theories/ApartProofs.v
theories/ApartProofs2.v
theories/ApartEx.v
theories/ApartProps.v
theories/ShiftSpec.v
theories/ShiftProofs.v
theories/ShiftProofs2.v
theories/ShiftEx.v
theories/ShiftShapeSpec.v
theories/ShiftShapes.v
theories/ShiftShapes2.v
theories/ShiftShapesEx.v
theories/ShiftProps.v
theories/CorrectSpec.v
theories/CorrectProofs.v
theories/CorrectProofs2.v
theories/SpaceAdd.v
theories/ShapeMassMore.v
theories/CorrectEx.v
theories/CorrectProps.v
theories/SpaceSetters.v
theories/SpaceSettersProofs.v
theories/SpaceSettersProps.v
theories/BodyForceProofs.v
theories/BodyForceProps.v
theories/BoxProofs.v
theories/BoxProps.v
