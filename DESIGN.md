# Formal model of SIREN in Rocq: design and trusted base

The code under study is the C++ source in `/repo` (pinned commit of
Harvard-Neutrino/SIREN).  It is read as text; nothing in it is built or run.
The model lives in `rocq/theories`, one group of files per subsystem:

* `XModel.v`  – Gallina transcription of the C++ functions. Every definition
  carries a comment with the file and line numbers it transcribes and any
  simplification. No proofs.
* `XSpec.v`   – small, independent statement of what a user expects
  (does not use the helpers of the model). Sometimes folded into the Props file
  when it is a couple of lines.
* `XProofs.v` – lemmas.
* `XProps.v`  – the property theorems only: each is closed by `exact`, is
  followed by `Print Assumptions`, and has a concrete non-trivial `Example`
  beside it meeting its hypotheses.

Theorem names carry the property id (`C26_...`). A suffix `_partial` marks a
theorem that covers only part of the English statement; `_refuted` marks a
proof that the English statement is false of the faithful model, with a
witness. Refuted properties are findings about the code and are listed at the
end of this file.

## Modelling conventions

* `double` is modelled by exact numbers. Code that only compares numbers
  (sorting, traversal, tree search) is modelled over an arbitrary decidable
  total order or over `Z`/`Q`, which contain every finite double exactly. Code
  that does arithmetic is modelled over `R` (stdlib Reals; rounding is not
  modelled, NaN and infinities are modelled only where the text says so).
* Exceptions are a distinct constructor of the result (`Throw`, `None`, `Err`),
  undefined behaviour is a further one (`UB`) where it matters.
* Mutation through pointers becomes a returned new value; aliasing matters in
  the tree model, where a heap of data is modelled explicitly.
* Virtual calls (cross sections, decays, distributions, geometry of user
  classes, the random generator) are universally quantified functions of the
  theorem: the theorem holds for every behaviour of them unless a hypothesis
  says otherwise.
* Loops become structural recursion, folds, or recursion on fuel with an
  explicit out-of-fuel value that the theorem excludes.

## Trusted base

* The Coq 8.16.1 kernel, and the faithfulness of the transcription (checked
  only by reading, see the citations).
* Axioms: only those of the Coq standard library's real numbers and
  functional extensionality, in the theorems about `R`:
  `ClassicalDedekindReals.sig_forall_dec`, `ClassicalDedekindReals.sig_not_dec`,
  `FunctionalExtensionality.functional_extensionality_dep`, and where analysis
  lemmas use it `Classical_Prop.classic`. Theorems over `Z`, `Q`, lists, etc.
  are closed under the global context. `Print Assumptions` under each theorem
  prints the exact list at build time.

## What is modelled and what is not

Per source file, the lines that the definitions of the model cite (ranges at most two lines apart are
joined), and the groups of files in `rocq/theories` that cite them. What such a file contains outside
these lines is not modelled: includes, comments, `ostream` output, accessors, pure declarations, and
functions not named in the comments of the model. Simplifications inside the lines are
stated in the comment of each definition.

| file | lines | modelled lines | groups |
|---|---|---|---|
| projects/dataclasses/private/InteractionRecord.cxx | 1809 | 21-700, 704-1204, 1208-1290 | Daughter, Ext, Injector, Order, Record |
| projects/dataclasses/private/InteractionSignature.cxx | 65 | 10-26 | Channel, Order |
| projects/dataclasses/private/InteractionTree.cxx | 229 | 14-34, 42-135 | Tree |
| projects/dataclasses/private/Particle.cxx | 107 | 66-72, 75-82 | Dis, Hdis |
| projects/dataclasses/private/ParticleID.cxx | 129 | 41-126 | Hepgraph, Id, Injector, Order |
| projects/dataclasses/public/SIREN/dataclasses/InteractionRecord.h | 468 | 59-92, 105-159, 162-185, 204-227, 238-260, 286-301, 306-325, 422-439 | Daughter, Dipole, Dis, Elastic, Hnl, Injector, Order, Record |
| projects/dataclasses/public/SIREN/dataclasses/InteractionSignature.h | 50 | 23-26 | Daughter, Dipole, Hdis, Hnl, Order, Weight |
| projects/dataclasses/public/SIREN/dataclasses/InteractionTree.h | 189 | 52-74, 77-86, 126-130, 140, 145-161 | Tree |
| projects/dataclasses/public/SIREN/dataclasses/Particle.h | 89 | 46-52 | Record |
| projects/dataclasses/public/SIREN/dataclasses/ParticleID.h | 71 | 26-28 | Order |
| projects/dataclasses/public/SIREN/dataclasses/ParticleTypes.def | 218 | 1, 16, 31-32, 200, 210 | Channel, Hepgraph, Material |
| projects/detector/private/AtomicMasses.cxx | 3568 | 9 | Material |
| projects/detector/private/CartesianAxis1D.cxx | 44 | 30-38 | Density |
| projects/detector/private/ConstantDistribution1D.cxx | 46 | 11, 28-40 | Density, Vol |
| projects/detector/private/DetectorModel.cxx | 2355 | 48-109, 125-155, 186-191, 213-286, 620-628, 640-642, 652-692, 697-721, 732-807, 810-813, 821-1117, 1219-1334, 1354-1748, 1751-1804, 1829-2011, 2053-2161 | Depth, Fill, Mix, Path, Point, Quat, Sector, Traversal, Vol |
| projects/detector/private/ExponentialDistribution1D.cxx | 56 | 40-50 | Density |
| projects/detector/private/GDMLParser.cxx | 255 | 29-149 | Merge |
| projects/detector/private/MaterialModel.cxx | 500 | 17-66, 90, 111-193, 249-281, 287-295, 302-423, 454-497 | Material |
| projects/detector/private/Path.cxx | 884 | 17-48, 55-61, 100-821, 824-881 | Path, Vertex |
| projects/detector/private/PolynomialDistribution1D.cxx | 59 | 43-53 | Density |
| projects/detector/private/RadialAxis1D.cxx | 45 | 30-39 | Density |
| projects/detector/private/gdml/GDMLDefineParser.cxx | 224 | 29-45, 48-219 | Def |
| projects/detector/private/gdml/GDMLExpression.cxx | 390 | 14-19, 22-27, 34-53, 57-369, 373-385 | Ext, Gdml, GdmlLoop |
| projects/detector/private/gdml/GDMLMaterialParser.cxx | 281 | 42-48, 192-241 | Mix |
| projects/detector/private/gdml/GDMLParserPrivate.h | 321 | 49-61, 65-76, 158-161, 166-181, 185-192, 196-213, 216-219, 224, 232-270, 274-276, 280-300 | Defer, Gdml, Inst |
| projects/detector/private/gdml/GDMLPreprocess.cxx | 485 | 296-301, 314-355, 359-382, 389-481 | GdmlLoop, GdmlUnit |
| projects/detector/private/gdml/GDMLReadUtils.cxx | 162 | 35-53, 65-73, 95-129, 134-158 | Pcone, Vol |
| projects/detector/private/gdml/GDMLSolidParser.cxx | 588 | 163-173, 409-581 | Defer, Pcone |
| projects/detector/private/gdml/GDMLStructureParser.cxx | 322 | 126-131, 135-253 | Inst, Vol |
| projects/detector/private/gdml/GDMLUnits.cxx | 330 | 35-129, 137-161, 178-194, 207-217, 240-301, 311-326 | GdmlLoop, GdmlUnit |
| projects/detector/public/SIREN/detector/Axis1D.h | 64 | 54-55 | Density |
| projects/detector/public/SIREN/detector/CartesianAxisDensityDistribution.h | 163 | 64, 67-141 | Density, Depth |
| projects/detector/public/SIREN/detector/ConstantDensityDistribution.h | 142 | 69-105 | Depth |
| projects/detector/public/SIREN/detector/ConstantDistribution1D.h | 55 | 43 | Density |
| projects/detector/public/SIREN/detector/Coordinates.h | 58 | 52-54 | Path |
| projects/detector/public/SIREN/detector/DensityDistribution.h | 105 | 76-89 | Depth |
| projects/detector/public/SIREN/detector/DetectorModel.h | 348 | 40-56, 66-107, 114, 121-136 | Depth, Quat, Sector |
| projects/detector/public/SIREN/detector/ExponentialDistribution1D.h | 74 | 60-62 | Density |
| projects/detector/public/SIREN/detector/GDMLParser.h | 149 | 21-47, 68-94 | Merge |
| projects/detector/public/SIREN/detector/MaterialModel.h | 165 | 33-43, 59-64, 78-86 | Material |
| projects/detector/public/SIREN/detector/Path.h | 257 | 30-54, 98-162 | Path |
| projects/detector/public/SIREN/detector/PolynomialDistribution1D.h | 65 | 51 | Density |
| projects/distributions/private/Distributions.cxx | 91 | 26-28, 42-54, 78-88 | Process, RankDist |
| projects/distributions/private/primary/PrimaryExternalDistribution.cxx | 219 | 28-103, 116-178, 188-194, 200-215 | Ext, RankDist |
| projects/distributions/private/primary/area/FixedTargetAreaDistribution.cxx | 102 | 83-95 | RankDist |
| projects/distributions/private/primary/direction/Cone.cxx | 89 | 23-58, 68-85 | Random, RankDist |
| projects/distributions/private/primary/direction/FixedDirection.cxx | 76 | 26-33, 47-72 | Random, RankDist |
| projects/distributions/private/primary/direction/IsotropicDirection.cxx | 57 | 20-33, 43-54 | Random, RankDist |
| projects/distributions/private/primary/energy/ModifiedMoyalPlusExponentialEnergyDistribution.cxx | 129 | 25-30, 36-40, 65-97, 107-125 | Random, RankDist |
| projects/distributions/private/primary/energy/Monoenergetic.cxx | 70 | 30-38, 48-66 | Random, RankDist |
| projects/distributions/private/primary/energy/PiDARNuEDistribution.cxx | 118 | 31-39, 42-49, 52-72, 82-92, 102-114 | Random, RankDist |
| projects/distributions/private/primary/energy/PowerLaw.cxx | 89 | 27-49, 63-81 | Random, RankDist |
| projects/distributions/private/primary/energy/TabulatedFluxDistribution.cxx | 310 | 102-104, 118-120, 126-186, 193-199, 246-257, 263-268, 271-277, 287-305 | Flux, RankDist |
| projects/distributions/private/primary/energy_direction/Tabulated2DFluxDistribution.cxx | 367 | 343-363 | RankDist |
| projects/distributions/private/primary/helicity/PrimaryNeutrinoHelicityDistribution.cxx | 78 | 19-48, 64-75 | Random, RankDist |
| projects/distributions/private/primary/mass/PrimaryMass.cxx | 71 | 32-42, 56-68 | Random, RankDist |
| projects/distributions/private/primary/vertex/ColumnDepthPositionDistribution.cxx | 235 | 31-45, 51-110, 120-174, 206-232 | RankDist, Vertex |
| projects/distributions/private/primary/vertex/CylinderVolumePositionDistribution.cxx | 109 | 24-62, 75-102 | Fill, RankDist |
| projects/distributions/private/primary/vertex/DecayRangeFunction.cxx | 79 | 57-76 | RankDist |
| projects/distributions/private/primary/vertex/DecayRangePositionDistribution.cxx | 159 | 28-88, 126-152 | RankDist, Vertex |
| projects/distributions/private/primary/vertex/DepthFunction.cxx | 35 | 20-32 | RankDist |
| projects/distributions/private/primary/vertex/FixedTargetPositionDistribution.cxx | 287 | 28-42, 108-116, 185-190, 268-280 | RankDist, Vertex |
| projects/distributions/private/primary/vertex/LeptonDepthFunction.cxx | 100 | 75-97 | RankDist |
| projects/distributions/private/primary/vertex/PointSourcePositionDistribution.cxx | 192 | 29-43, 81-89, 135-140, 173-189 | RankDist, Vertex |
| projects/distributions/private/primary/vertex/PrimaryBoundedVertexDistribution.cxx | 256 | 31-45, 100-108, 172-177, 231-253 | RankDist, Vertex |
| projects/distributions/private/primary/vertex/PrimaryPhysicalVertexDistribution.cxx | 185 | 31-45, 82-90, 136-141, 171-182 | RankDist, Vertex |
| projects/distributions/private/primary/vertex/RangeFunction.cxx | 34 | 19-31 | RankDist |
| projects/distributions/private/primary/vertex/RangePositionDistribution.cxx | 229 | 31-45, 94-102, 154-159, 200-226 | RankDist, Vertex |
| projects/distributions/private/primary/vertex/SphereVolumePositionDistribution.cxx | 124 | 23-78, 90-117 | Fill, RankDist |
| projects/distributions/private/primary/vertex/VertexPositionDistribution.cxx | 38 | 17-23 | Own |
| projects/distributions/private/secondary/vertex/SecondaryBoundedVertexDistribution.cxx | 248 | 33-47, 101-109, 171-176, 230-245 | RankDist, Vertex |
| projects/distributions/private/secondary/vertex/SecondaryPhysicalVertexDistribution.cxx | 183 | 31-45, 81-89, 133-138, 168-180 | RankDist, Vertex |
| projects/distributions/public/SIREN/distributions/Distributions.h | 214 | 45-75, 106 | RankDist |
| projects/distributions/public/SIREN/distributions/primary/PrimaryExternalDistribution.h | 92 | 35-41 | Ext, RankDist |
| projects/distributions/public/SIREN/distributions/primary/area/FixedTargetAreaDistribution.h | 74 | 33 | RankDist |
| projects/distributions/public/SIREN/distributions/primary/direction/FixedDirection.h | 74 | 33 | RankDist |
| projects/distributions/public/SIREN/distributions/primary/direction/IsotropicDirection.h | 67 | 31 | RankDist |
| projects/distributions/public/SIREN/distributions/primary/energy/ModifiedMoyalPlusExponentialEnergyDistribution.h | 95 | 33-39 | RankDist |
| projects/distributions/public/SIREN/distributions/primary/energy/Monoenergetic.h | 72 | 32 | RankDist |
| projects/distributions/public/SIREN/distributions/primary/energy/PiDARNuEDistribution.h | 71 | 29 | RankDist |
| projects/distributions/public/SIREN/distributions/primary/energy/PowerLaw.h | 80 | 33-35 | RankDist |
| projects/distributions/public/SIREN/distributions/primary/energy/PrimaryEnergyDistribution.h | 70 | 27 | RankDist |
| projects/distributions/public/SIREN/distributions/primary/energy/TabulatedFluxDistribution.h | 130 | 37-48 | Flux, RankDist |
| projects/distributions/public/SIREN/distributions/primary/energy_direction/PrimaryEnergyDirectionDistribution.h | 69 | 28 | RankDist |
| projects/distributions/public/SIREN/distributions/primary/energy_direction/Tabulated2DFluxDistribution.h | 124 | 39-46 | RankDist |
| projects/distributions/public/SIREN/distributions/primary/helicity/PrimaryNeutrinoHelicityDistribution.h | 64 | 26 | RankDist |
| projects/distributions/public/SIREN/distributions/primary/mass/PrimaryMass.h | 73 | 32 | RankDist |
| projects/distributions/public/SIREN/distributions/primary/vertex/ColumnDepthPositionDistribution.h | 91 | 38-40 | RankDist |
| projects/distributions/public/SIREN/distributions/primary/vertex/CylinderVolumePositionDistribution.h | 76 | 35 | RankDist |
| projects/distributions/public/SIREN/distributions/primary/vertex/DecayRangeFunction.h | 82 | 27-30 | RankDist |
| projects/distributions/public/SIREN/distributions/primary/vertex/DecayRangePositionDistribution.h | 89 | 35-37 | RankDist |
| projects/distributions/public/SIREN/distributions/primary/vertex/FixedTargetPositionDistribution.h | 85 | 33-34 | RankDist |
| projects/distributions/public/SIREN/distributions/primary/vertex/LeptonDepthFunction.h | 89 | 27-33 | RankDist |
| projects/distributions/public/SIREN/distributions/primary/vertex/PointSourcePositionDistribution.h | 85 | 35-36 | RankDist |
| projects/distributions/public/SIREN/distributions/primary/vertex/PrimaryBoundedVertexDistribution.h | 90 | 38-39 | RankDist |
| projects/distributions/public/SIREN/distributions/primary/vertex/PrimaryPhysicalVertexDistribution.h | 78 | 35 | RankDist |
| projects/distributions/public/SIREN/distributions/primary/vertex/RangePositionDistribution.h | 93 | 36-39 | RankDist |
| projects/distributions/public/SIREN/distributions/primary/vertex/SphereVolumePositionDistribution.h | 76 | 35 | RankDist |
| projects/distributions/public/SIREN/distributions/secondary/vertex/SecondaryBoundedVertexDistribution.h | 90 | 38-39 | RankDist |
| projects/distributions/public/SIREN/distributions/secondary/vertex/SecondaryPhysicalVertexDistribution.h | 78 | 35 | RankDist |
| projects/geometry/private/BooleanGeometry.cxx | 305 | 21-31, 42-60, 63-85, 117-249, 252-300 | Geometry, Rank, Sector |
| projects/geometry/private/Box.cxx | 122 | 30-31, 38-108, 111-119 | Geometry, Rank, Sector |
| projects/geometry/private/Cone.cxx | 458 | 31-37, 41-42, 48-54, 58-59, 68-69, 96-97, 106-108, 115-158, 177-227, 260-444, 448-455 | Frus, Frust, Frustum, Rank |
| projects/geometry/private/CutTube.cxx | 391 | 104-105 | Rank |
| projects/geometry/private/Cylinder.cxx | 234 | 40-51, 56-57, 66-229 | Frustum, Rank, Solid, Wedge |
| projects/geometry/private/Ellipsoid.cxx | 218 | 25-34, 54-55, 62-198, 201-215 | Rank, Solid |
| projects/geometry/private/EllipticalTube.cxx | 167 | 34-35, 42-156, 159-164 | Rank, Solid |
| projects/geometry/private/ExtrPoly.cxx | 260 | 39-40 | Rank |
| projects/geometry/private/GenericPolycone.cxx | 404 | 83-84 | Rank |
| projects/geometry/private/Geometry.cxx | 246 | 89-95, 98-109, 121-140, 170-236 | Geometry, Rank, Sector |
| projects/geometry/private/GeometryMacros.h | 110 | 98-110 | Rank |
| projects/geometry/private/GeometryMesh.cxx | 577 | 33-70, 80-117, 120-156, 236-246, 256-374, 380-472, 496-574 | Mesh, MeshFloat, Rank |
| projects/geometry/private/Para.cxx | 212 | 21-65, 74-79, 88-93, 118-119, 126-183, 186-209 | Hull, Rank |
| projects/geometry/private/PhiUtils.h | 73 | 15, 18-22, 26-35, 43-54, 61-67 | Wedge |
| projects/geometry/private/Placement.cxx | 194 | 27-46, 94-112, 147-162, 169-193 | Quat, Rank |
| projects/geometry/private/Polycone.cxx | 600 | 22-55, 61-66, 78-79, 99-438 | Pcone, Rank |
| projects/geometry/private/Polyhedra.cxx | 792 | 106-107 | Rank |
| projects/geometry/private/Sphere.cxx | 312 | 45-48, 78-79, 90-297, 301-306 | Geometry, Rank, Sector |
| projects/geometry/private/Torus.cxx | 477 | 204-205 | Rank |
| projects/geometry/private/Trap.cxx | 288 | 26-35, 40-50, 58-112, 115-143, 146-199, 214-215, 222-276, 279-285 | Hull, Rank |
| projects/geometry/private/Trd.cxx | 272 | 36-37, 44-259, 262-269 | Rank, Solid |
| projects/geometry/public/SIREN/geometry/AABB.h | 181 | 16-26, 32-43, 46-49, 99-103, 106-110, 119-167 | Geometry, Sector |
| projects/geometry/public/SIREN/geometry/BooleanGeometry.h | 85 | 27, 71-73 | Geometry, Rank |
| projects/geometry/public/SIREN/geometry/Box.h | 85 | 72-74 | Geometry, Rank |
| projects/geometry/public/SIREN/geometry/Cone.h | 98 | 33-36, 80-87 | Random, Rank, RankDist |
| projects/geometry/public/SIREN/geometry/CutTube.h | 100 | 82-89 | Rank |
| projects/geometry/public/SIREN/geometry/Cylinder.h | 96 | 80-86 | Fill, Rank |
| projects/geometry/public/SIREN/geometry/Ellipsoid.h | 90 | 75-79 | Rank |
| projects/geometry/public/SIREN/geometry/EllipticalTube.h | 78 | 66-68 | Rank |
| projects/geometry/public/SIREN/geometry/ExtrPoly.h | 151 | 30-37, 44-55, 139-140 | Rank |
| projects/geometry/public/SIREN/geometry/GenericPolycone.h | 97 | 82-85 | Rank |
| projects/geometry/public/SIREN/geometry/Geometry.h | 237 | 67-221 | Depth, Geometry, Path, Rank, Sector, Traversal |
| projects/geometry/public/SIREN/geometry/GeometryMesh.h | 98 | 34, 78, 81-86 | Mesh, Rank |
| projects/geometry/public/SIREN/geometry/Para.h | 97 | 77-82 | Rank |
| projects/geometry/public/SIREN/geometry/Placement.h | 95 | 77-95 | Quat, Rank |
| projects/geometry/public/SIREN/geometry/Polycone.h | 108 | 92-96 | Rank |
| projects/geometry/public/SIREN/geometry/Polyhedra.h | 139 | 117-123 | Rank |
| projects/geometry/public/SIREN/geometry/Sphere.h | 104 | 84-89 | Geometry, Rank |
| projects/geometry/public/SIREN/geometry/Torus.h | 102 | 87-91 | Rank |
| projects/geometry/public/SIREN/geometry/Trap.h | 120 | 96-106 | Hull, Rank |
| projects/geometry/public/SIREN/geometry/Trd.h | 88 | 73-77 | Rank |
| projects/injection/private/ColumnDepthLeptonInjector.cxx | 66 | 41-45, 61-63 | Own |
| projects/injection/private/CylinderVolumeLeptonInjector.cxx | 53 | 30-33, 48-50 | Own |
| projects/injection/private/DecayRangeLeptonInjector.cxx | 64 | 40-43, 59-61 | Own |
| projects/injection/private/Injector.cxx | 515 | 46-91, 94-146, 162-276, 286-365, 368, 371-409, 453-458, 461-463, 493-499 | Channel, Injector, Own, Weight |
| projects/injection/private/Process.cxx | 214 | 66, 84-90, 96-104, 124-148, 182-207 | Own, Process |
| projects/injection/private/RangedLeptonInjector.cxx | 65 | 26-54, 60-62 | Own |
| projects/injection/private/Weighter.cxx | 258 | 51-140, 158-208 | Prob, Weight |
| projects/injection/private/WeightingUtils.cxx | 93 | 25-89 | Channel, Weight |
| projects/injection/public/SIREN/injection/Injector.h | 163 | 56-73 | Injector, Weight |
| projects/injection/public/SIREN/injection/Process.h | 157 | 29-30, 60, 71, 83-135 | Injector, Process, Weight |
| projects/injection/public/SIREN/injection/Weighter.h | 139 | 43-50 | Weight |
| projects/injection/public/SIREN/injection/Weighter.tcc | 274 | 41-63, 71-92, 96-152, 155-245, 248-254 | Prob, Vertex, Weight |
| projects/interactions/private/CharmMesonDecay.cxx | 555 | 46-270, 286-463, 469-545 | Charm |
| projects/interactions/private/DISFromSpline.cxx | 624 | 40-53, 162-186, 279-592 | Dis, Turn |
| projects/interactions/private/DMesonELoss.cxx | 247 | 64-86, 97-141, 149-232 | Eloss |
| projects/interactions/private/DarkNewsCrossSection.cxx | 284 | 34-63, 124-277 | Dark |
| projects/interactions/private/Decay.cxx | 46 | 23-37 | Dipole |
| projects/interactions/private/DummyCrossSection.cxx | 199 | 40-48, 51-56, 63-64, 79-191 | Dummy |
| projects/interactions/private/ElasticScattering.cxx | 289 | 41-74, 77-95, 109, 116-216, 220, 271-281 | Elastic, Turn |
| projects/interactions/private/ElectroweakDecay.cxx | 336 | 23-76, 92-328 | Ew |
| projects/interactions/private/HNLDISFromSpline.cxx | 605 | 44-57, 219-288, 323-369, 566-573 | Hdis |
| projects/interactions/private/HNLDecay.cxx | 1300 | 31-33, 637-728, 771-802, 807-849, 870-883, 906-983, 987-1007, 1019-1032, 1053-1068, 1079-1085, 1136-1201, 1207-1245, 1249-1295 | Hnl, Hnl3, Turn |
| projects/interactions/private/HNLDipoleDISFromSpline.cxx | 604 | 42-59, 221-290, 316-364, 565-572 | Hdis |
| projects/interactions/private/HNLDipoleDecay.cxx | 206 | 46-67, 74-200 | Dipole |
| projects/interactions/private/HNLDipoleFromTable.cxx | 759 | 69-95, 98-111, 163-193, 209-239, 242-244, 406, 421-432 | Ytab |
| projects/interactions/private/InteractionCollection.cxx | 159 | 20-46, 52-79, 88-114, 128-156 | Channel |
| projects/interactions/private/QuarkDISFromSpline.cxx | 899 | 37-46, 54-82, 366-370, 377-379, 382-398, 415-438, 463-464, 477, 481, 484, 488-492, 571-591, 740-849, 859-869 | Qk |
| projects/interactions/public/SIREN/interactions/CharmCrossSectionHelpers.h | 110 | 33-42 | Qk |
| projects/interactions/public/SIREN/interactions/CharmDecayKinematics.h | 209 | 37-74, 78-80, 85-117, 126-156, 160-184, 189-203 | Charm |
| projects/interactions/public/SIREN/interactions/CrossSection.h | 68 | 39-52 | Channel |
| projects/interactions/public/SIREN/interactions/DMesonELoss.h | 103 | 40, 48-49 | Eloss |
| projects/interactions/public/SIREN/interactions/Decay.h | 64 | 38-48 | Channel |
| projects/interactions/public/SIREN/interactions/ElasticScattering.h | 86 | 36 | Elastic |
| projects/interactions/public/SIREN/interactions/ElectroweakDecay.h | 119 | 44-68, 72 | Ew |
| projects/interactions/public/SIREN/interactions/HNLDISFromSpline.h | 167 | 44-56 | Hdis |
| projects/interactions/public/SIREN/interactions/HNLDecay.h | 149 | 43-45, 75 | Hnl, Hnl3 |
| projects/interactions/public/SIREN/interactions/HNLDipoleDISFromSpline.h | 167 | 43-58 | Hdis |
| projects/interactions/public/SIREN/interactions/HNLDipoleDecay.h | 105 | 37-54 | Dipole |
| projects/interactions/public/SIREN/interactions/InteractionCollection.h | 103 | 37-41, 83-93 | Channel |
| projects/io/private/HepMC3Reader.cxx | 326 | 53-246 | Hepgraph, Hepmc |
| projects/io/private/HepMC3Writer.cxx | 644 | 22-37, 74-76, 80-83, 107-114, 337-512, 582, 585-599, 602-616, 620-639 | Hepgraph, Hepmc |
| projects/io/public/SIREN/io/HepMC3Writer.h | 106 | 82-86 | Hepmc |
| projects/math/private/Matrix3D.cxx | 415 | 17-28, 175-188, 204-279, 309-312, 330-361, 366-411 | Euler |
| projects/math/private/Polynomial.cxx | 218 | 22-30, 36-104, 129-215 | Poly |
| projects/math/private/Quaternion.cxx | 537 | 24-30, 53-59, 102-121, 146-203, 230-252, 255-378, 388-417, 441-451, 477-488, 495-501, 508-536 | Euler, Quat, Random, Rank |
| projects/math/private/Vector3D.cxx | 386 | 15-26, 41-45, 79-102, 142-253, 260-281, 330-335, 340, 343 | Path, Random, Rank, RankDist, Vector |
| projects/math/public/SIREN/math/Conversions.h | 227 | 20-221 | Euler |
| projects/math/public/SIREN/math/EulerAngles.h | 162 | 18-103, 150-153 | Euler |
| projects/math/public/SIREN/math/EulerQuaternionConversions.h | 127 | 19-63, 66-121 | Euler, Quat |
| projects/math/public/SIREN/math/Interpolation.h | 1546 | 52-57, 68, 71-82, 86-93, 97, 100-111, 115-122, 126-173, 178-197, 201-221, 226-248, 252, 255-262, 266-271, 289, 292-302, 432-438, 442-466, 493-502, 506-511, 514-537, 563-584, 588-595, 619-622, 625-732, 782-798, 804-809, 823-832, 840-844, 847-858, 868-909, 957-971, 974-980, 986-988, 994-1002, 1009-1027, 1040-1046, 1050-1135, 1145-1151, 1155-1259, 1267-1279, 1287-1290, 1301-1304, 1310-1322, 1339-1402, 1466-1502 | Del, Idx, Quad, Trans |
| projects/math/public/SIREN/math/Matrix3D.h | 129 | 110-118 | Quat |
| projects/math/public/SIREN/math/Polynomial.h | 124 | 96-97, 115-116 | Density, Poly |
| projects/math/public/SIREN/math/Quaternion.h | 128 | 114-121 | Quat, Rank |
| projects/math/public/SIREN/math/Vector3D.h | 201 | 96-100, 109, 157-168, 187-188, 196-197 | Rank, Vector |
| projects/serialization/public/SIREN/serialization/ByteString.h | 104 | 40-52, 71-81 | Hex |
| projects/utilities/private/Random.cxx | 72 | 32-48 | Channel, Random |
| projects/utilities/public/SIREN/utilities/Constants.h | 159 | 19-21, 25-26, 29, 35-46, 50-97, 104-106, 126, 130-132, 135-136, 139, 144-152 | Channel, Charm, Dipole, Dis, Elastic, Ew, GdmlUnit, Hdis, Hepgraph, Hnl, Hnl3, Material, Qk, Random, Record |
| projects/utilities/public/SIREN/utilities/Integration.h | 297 | 24, 37-41, 46-59, 67-71, 82-87, 92, 107-152, 167-211, 222-234, 248-292 | Density, Eloss, Romb, Table |
| projects/utilities/public/SIREN/utilities/Interpolator.h | 727 | 31-34, 37-44, 57-61, 64-71, 121-136, 160-163, 178-186, 192-204, 229-285, 309-314, 341-347, 353-360, 381-456, 489-496 | RankDist, Table |
| projects/utilities/public/SIREN/utilities/Sampling.h | 59 | 25-54 | Mh |
| vendor/rk/rk/geom3.cc | 438 | 281-300 | Rk |
| vendor/rk/rk/rk.cc | 370 | 8-27 | Rk |

Nowhere modelled: rounding of doubles, memory management and reference counts, threads, the
serialization archives of cereal beyond the field lists cited above, the Python bindings
(`pybindings`) and trampolines (`py*.cxx`), the Python package, the build system, the tests, and
the external libraries (photospline, Delabella, Pythia, Marley, cfitsio), whose results
are arguments of the definitions. Of the C++ files these are not cited at all:

* `projects/dataclasses/private`: DecaySignature.cxx, ParticleType.cxx.
* `projects/dataclasses/public/SIREN`: dataclasses.h.
* `projects/dataclasses/public/SIREN/dataclasses`: DecaySignature.h, ParticleMasses.h,
  ParticleType.h, serializable.h.
* `projects/detector/private`: Axis1D.cxx, CartesianAxisDensityDistribution.cxx,
  CartesianAxisExponentialDensityDistribution.cxx, CartesianAxisPolynomialDensityDistribution.cxx,
  ConstantDensityDistribution.cxx, DensityDistribution.cxx, DensityDistribution1D.cxx,
  Distribution1D.cxx, RadialAxisExponentialDensityDistribution.cxx,
  RadialAxisPolynomialDensityDistribution.cxx.
* `projects/detector/public/SIREN`: detector.h.
* `projects/detector/public/SIREN/detector`: CartesianAxis1D.h,
  CartesianAxisExponentialDensityDistribution.h, CartesianAxisPolynomialDensityDistribution.h,
  DensityDistribution1D.h, DetectorModel.tcc, Distribution1D.h, MaterialModel.tcc, RadialAxis1D.h,
  RadialAxisExponentialDensityDistribution.h, RadialAxisPolynomialDensityDistribution.h,
  serializable.h.
* `projects/distributions/private`: pyPrimaryInjectionDistribution.cxx,
  pySecondaryInjectionDistribution.cxx, pyWeightableDistribution.cxx.
* `projects/distributions/private/primary/area`: PrimaryAreaDistribution.cxx,
  pyPrimaryAreaDistribution.cxx.
* `projects/distributions/private/primary/direction`: PrimaryDirectionDistribution.cxx,
  pyPrimaryDirectionDistribution.cxx.
* `projects/distributions/private/primary/energy`: PrimaryEnergyDistribution.cxx,
  pyPrimaryEnergyDistribution.cxx.
* `projects/distributions/private/primary/energy_direction`: PrimaryEnergyDirectionDistribution.cxx,
  pyPrimaryEnergyDirectionDistribution.cxx.
* `projects/distributions/private/primary/vertex`: OrientedCylinderPositionDistribution.cxx,
  pyVertexPositionDistribution.cxx.
* `projects/distributions/private/secondary/vertex`: SecondaryVertexPositionDistribution.cxx,
  pySecondaryVertexPositionDistribution.cxx.
* `projects/distributions/public/SIREN`: distributions.h.
* `projects/distributions/public/SIREN/distributions`: pyPrimaryInjectionDistribution.h,
  pySecondaryInjectionDistribution.h, pyWeightableDistribution.h, serializable.h.
* `projects/distributions/public/SIREN/distributions/primary/area`: PrimaryAreaDistribution.h,
  pyPrimaryAreaDistribution.h.
* `projects/distributions/public/SIREN/distributions/primary/direction`:
  PrimaryDirectionDistribution.h, pyPrimaryDirectionDistribution.h.
* `projects/distributions/public/SIREN/distributions/primary/energy`: pyPrimaryEnergyDistribution.h.
* `projects/distributions/public/SIREN/distributions/primary/energy_direction`:
  pyPrimaryEnergyDirectionDistribution.h.
* `projects/distributions/public/SIREN/distributions/primary/vertex`: DepthFunction.h,
  OrientedCylinderPositionDistribution.h, RangeFunction.h, VertexPositionDistribution.h,
  pyVertexPositionDistribution.h.
* `projects/distributions/public/SIREN/distributions/secondary/vertex`:
  SecondaryVertexPositionDistribution.h, pySecondaryVertexPositionDistribution.h.
* `projects/geometry/private`: MeshBuilder.cxx.
* `projects/geometry/public/SIREN`: geometry.h.
* `projects/geometry/public/SIREN/geometry`: MeshBuilder.h, serializable.h.
* `projects/injection/public/SIREN`: injection.h.
* `projects/injection/public/SIREN/injection`: ColumnDepthLeptonInjector.h,
  CylinderVolumeLeptonInjector.h, DecayRangeLeptonInjector.h, RangedLeptonInjector.h,
  WeightingUtils.h, serializable.h.
* `projects/interactions/private`: CharmMesonDecay3Body.cxx, CrossSection.cxx, DarkNewsDecay.cxx,
  MarleyCrossSection.cxx, PythiaDISCrossSection.cxx, pyCrossSection.cxx, pyDarkNewsCrossSection.cxx,
  pyDarkNewsDecay.cxx, pyDecay.cxx.
* `projects/interactions/public/SIREN`: interactions.h.
* `projects/interactions/public/SIREN/interactions`: CharmMesonDecay.h, CharmMesonDecay3Body.h,
  DISFromSpline.h, DarkNewsCrossSection.h, DarkNewsDecay.h, DummyCrossSection.h,
  HNLDipoleFromTable.h, Interaction.h, MarleyCrossSection.h, PythiaDISCrossSection.h,
  QuarkDISFromSpline.h, pyCrossSection.h, pyDarkNewsCrossSection.h, pyDarkNewsDecay.h, pyDecay.h,
  serializable.h.
* `projects/io/public/SIREN/io`: HepMC3Reader.h.
* `projects/math/private`: EulerAngles.cxx, Interpolation.cxx.
* `projects/math/public/SIREN`: math.h.
* `projects/math/public/SIREN/math`: serializable.h.
* `projects/serialization/private`: serialization.cxx.
* `projects/serialization/public/SIREN/serialization`: array.h.
* `projects/utilities/private`: Interpolator.cxx, StringManipulation.cxx.
* `projects/utilities/public/SIREN`: utilities.h.
* `projects/utilities/public/SIREN/utilities`: Errors.h, Pybind11Trampoline.h, Random.h,
  StringManipulation.h, serializable.h.

## Plan per property

| id | what is modelled | how it is proved |
|---|---|---|
| C01 | heap of data + tree array, `add_entry` | invariant by induction on the operation list |
| C02 | `depth` loop with its bound | structural recursion; induction on ancestor chain |
| C03 | `save`/`load`/`validate_indices` on the index structure | round trip equality; range invariant; acyclicity refuted by witness |
| C04 | `rebuild_indices_from_legacy` on pointer graphs | pointwise characterisation against the pointer topology |
| C05 | small-step interleaving semantics of `GenerateID` over its atomics and lock | safety invariant for a single process id; the fork path stated separately |
| C06 | lexicographic comparison as generated by `std::tie` | order laws by induction on the fields/lists |
| C07 | record of optional fields with getters/updaters over R | case analysis on the flags |
| C08 | same record, positional part | case analysis; wrong branch refuted |
| C09 | secondary records and finalize | direct computation over R |
| C10 | counter state machine of the injector | invariant by induction on histories |
| C11 | same machine, `operator bool` | refuted by witness; true region characterised |
| C12 | cumulative selection loop | interval characterisation over R by induction |
| C13 | event generation as a worklist machine with oracle for physics | invariant over the worklist; completeness at exhaustion |
| C14 | secondary process registry | invariant over operation lists |
| C15 | `EventWeight` sum | algebra over R, permutations |
| C16 | cancellation in `ProcessWeighter::Initialize` | products over lists |
| C17 | rate loops of generator and weighter | equality of the two sums, normalisation |
| C18 | the sampling map and density | real analysis (derivatives, bijection) |
| C19 | the three-branch approximations | error bounds by alternating series / derivative sign arguments |
| C20 | `InitializeTargetTypes` maps | characterisation by induction |
| C21 | harmonic sum | algebra over R with explicit infinity |
| C22 | process Add/Set operations | invariant over operation lists |
| C23 | BVH build and search | equality with the linear-scan specification for any split choice |
| C24 | BVH ray traversal | permutation equality with the linear scan given sound boxes |
| C25 | comparator and sort | strict weak order; uniqueness of sorted permutations up to equivalence |
| C26 | `SectorLoop` | invariant over the sorted list against interval membership |
| C27 | sort + loop on touching rays | refuted by witness |
| C28 | column-depth loop | telescoping sums over the segment list |
| C29 | distance-for-depth loop | inverse by induction over segments |
| C30 | interaction-depth loops | inverse without decay; with decay refuted |
| C31 | the overload pairs | refuted by witness for detector coordinates |
| C32 | `ToDet`/`ToGeo` | polynomial identities |
| C33 | serialised field list | refuted by witness |
| C34 | sector registry machine | invariant; `SetSectors` atomicity refuted |
| C35 | `GetOuterBounds` | list characterisation |
| C36 | path state machine | invariant over operation lists; clip case refuted |
| C37 | path operations | algebra over R |
| C38 | material registry | invariant over operation lists |
| C39 | material redefinition | refuted by witness, proved for first definitions |
| C40 | derived components | sums over lists |
| C41 | radiation fraction | refuted by witness |
| C42 | slab loop of Box | interval characterisation over R |
| C43 | sphere intersections | quadratic roots over R |
| C44 | `IsInside` on alternating lists | list induction |
| C45 | CSG walk | invariant against the set operation of interval families |
| C46 | slab test and box algebra | real arithmetic |
| C47 | Placement | from quaternion identities |
| C48 | quaternion algebra | `ring`/`field` |
| C49 | compound operators | refuted by witnesses |
| C50 | `rotation_between` | generic case proved, antiparallel x-axis case refuted |
| C51 | cached spherical state | refuted by witness |
| C52 | polynomial operations | induction on coefficients |
| C53 | Newton loop | invariant of the bracket |
| C54 | density classes | `RInt`/closed forms; wrong constant refuted |
| C55 | index finders + linear interpolation | order reasoning; first-node case refuted |
| C56 | trapezoid sub-range | piecewise-linear algebra |
| C57 | Uniform/PowerLaw draws | real arithmetic; PowerLaw refuted |
| C58 | power law sampling/density | real analysis; support refuted |
| C59 | decay range sampling/density | real analysis |
| C60 | `equal`/`less` per class | order laws; broken ones refuted |
| C61 | Cone | density proved; axis handling refuted |
| C62 | tokens → RPN → value | shunting-yard correctness by induction on a precedence grammar |
| C63 | tokenizer with fuel, evaluator | divergence witness; acceptance of malformed input refuted |
| C64 | `SubstLoopVar` | termination for non-empty names; divergence for the empty name |
| C65 | unit tables | finite tables lifted to all strings |
| C66 | event number assignment | freshness invariant |
| C67 | process id assignment | injectivity; collision with pre-filled map refuted |
| C68 | topological insertion rounds | invariant and progress measure |
| C69 | hex codec | byte-level induction |
| C70 | nuclear code decoding | decimal digits and sscanf fields modelled exactly; induction over digits; refuted for prefix and sign |
| C71 | material file reader | getline stream with eof state; induction on blocks; refuted for truncated files |
| C72 | weight sums of a saved run | fold over the trees, real sums |
| C73 | Euler angle quaternions | products of axis rotations, `ring` and angle sums |
| C74 | isotropic directions, single-value distributions | explicit inverse of the map from variates to directions |
| C75 | spectrum from muon decay at rest | derivative of the cdf, bisection invariant, fuel bound |
| C76 | Moyal plus exponential | invariant of the Metropolis loop; derivative of the closed form |
| C77 | product of the two factors | case analysis on the series used, error bounds of C19 |
| C78 | `SubstLoopVar` and `EvalExpression` together | induction over the spelling of an expression; numerals preserve the meaning, negative values do not |
| C79 | Geometries as an inductive type with one record per class (RankModel.v) over an arbitrary number type | Agreement with a depth-indexed lexicographic comparison, which is ordered |
| C80 | get_time, finalize, finalize_available over the C07 record | case analysis; stability of getters under reads |
| C81 | set_particle, get_particle | last-set invariant |
| C82 | SecondaryParticleRecord as flags and members over the reals | map to the model of the primary record and reuse its lemmas; invariant over call sequences |
| C83 | constructor, setters, per-slot calls and Finalize over an explicit record | invariant of the final state over call sequences; induction over the secondaries written |
| C84 | P4, Boost, restBoost, labBoost over R | algebra, Cauchy-Schwarz for the sign of the energy |
| C85 | quaternions of geom3, rotationBetween for both meanings of the unqualified abs | algebra; refuted near (anti)parallel and for the integer abs |
| C86 | SampleFinalState on top of the rk model | Lorentz invariance of the Minkowski product; refuted if the record's mass differs from the model's |
| C87 | DifferentialDecayWidth, SampleFinalState, FinalStateProbability | inverse transform by algebra, angle through rotation and boost by the lemmas of C84 and C85 |
| C88 | widths, signatures and decay lengths | algebra |
| C89 | the sampler as a fold over rounds, a round being a proposal and a uniform number | induction over the rounds; detailed balance for the acceptance probability, then stationarity of finite chains |
| C90 | the electron made from y, the record's cross section, on top of the kinematics library model | algebra: the longitudinal momentum is (E+m)y; rotations keep products |
| C91 | the sampling chain and the record it leaves | refuted in every part by witnesses; what holds instead is proved for all inputs |
| C92 | kinematicallyAllowed, the construction of lepton and hadrons, cross section of a record | the component of q across the beam is real exactly when the quadratic of the paper is; rotations keep products |
| C93 | the rejection loops, the chain of 41 rounds and the final record over a list of random numbers | invariant of the chain; the acceptance is min(1, ratio of x y sigma), the proposals uniform in the logarithms |
| C94 | HnlModel.v: get_alpha, hnl_products, hnl_sample2, hnl_three_neutrinos | Rest-frame pair back to back, energies add to M; Lorentz boost of the pair is linear |
| C95 | HnlModel.v: get_alpha, hnl_alpha, hnl_cos, hnl_width2, hnl_probability2 | Inverse of the quadratic cdf for any alpha in [-1,1]; boosting back recovers the rest-frame direction; sign refuted by a concrete rho0 decay |
| C96 | ThreeBodyPhaseSpaceConversion, ThreeBodyPhaseSpaceProposalDistribution and the part of SampleFinalState building momenta | Gram determinant of the three momenta equals minus the Dalitz polynomial; then the boost lemmas of the kinematics library |
| C97 | same model | limits equal to the standard formula, completeness from positivity of the Gram determinant; Jacobian of the map |
| C98 | both overloads of ThreeBodyDifferentialDecayWidth | positive semidefiniteness of the quadratic form, witnesses for the failures |
| C99 | the box predicates, quadrants, split, add, remove, merge and query as a functional tree whose assertions are None | induction on the tree with an invariant saying where each value lies, then on the history |
| C100 | findAllIntersections and findIntersectionsInDescendants on the same functional tree | multiset equality of reported pairs with the overlapping pairs of the contents, by induction on the tree |
| C101 | the four transforms with constructors, Function, Inverse, save and load over the reals | case analysis; ln/exp are inverse and monotone; induction over the vector for the minimum |
| C102 | equal, less, operator== and operator< with the static typeid and the dynamic casts | case analysis; refutations by witness for members that are ignored, null casts, asymmetry |
| C103 | the four operators over the reals, division by zero as None | field identities and weighted means |
| C104 | constructor with sort and reversed flag, operator() with the conversion to int as UB when it overflows | floor arithmetic over the reals; uniqueness of the sorted permutation; refutations for overflow and for descending data |
| C105 | constructor, lower_bound search, transform indexer | specification of lower_bound by induction; monotone transforms preserve order |
| C106 | sets of values, maps of places, first-insert map of entries, look-up with at | induction over the points; strict sortedness of the sets |
| C107 | the six metrics over the reals with epsilon as a parameter, min_element, construction | lower bounds on all metrics; equality for equal steps; a three-point witness for the general claim |
| C108 | PointInTriangle, GetBox, the constructor and operator() over the model of the quadtree; the triangulation is a parameter | C99_query with the bounding box around all triangles; barycentric weights by field |
| C109 | both simplex operators, the constructor and operator() of the interpolator | weights of a point are unique in a proper triangle; sums of products of signs |
| C110 | Depth and distance functions of PathModel, with the depths of a detector as in DepthModel | Invariant of the path, then the line integral as an additive measure; instance for column depths |
| C111 | IsWithinBounds and GetDistanceFromStartInBounds in both frames | Invariant of the path and rotations preserving scalar products; refuted where the frames differ |
| C112 | PrepareRay and WoopIntersect over the reals | the edge functions are the barycentric weights times the determinant; the determinant is minus normal times direction over the largest component |
| C113 | flat node array, task stack, indices, box test, both search stacks; float rounding a parameter | a subtree lemma with frame conditions for the construction; the found and the pending crossings together stay the same during the search; rounding to nearest refuted with binary32 |
| C114 | sorting as a parameter, the merge loop | induction over the sorted list; a touched edge gives a single crossing (refuted) |
| C115 | the vertex map, the edge table and the two counts | invariant relating the table to the number of sides between two keys |
| C116 | as C113 and C115 | signed crossings of a half-line by the projected sides add up to zero over the mesh and to the winding number over each triangle |
| C117 | cylinder_hits, cylinder_bounds, make_cylinder over the reals, without the angular cut | a line changes between in and out exactly where one of its two radial conditions or the height condition changes; a general argument on lists of such changes |
| C118 | ellipsoid_hits, ellipsoid_bounds, make_ellipsoid over the reals | as for cylinders, with the quadratic form of the ellipsoid |
| C119 | tube_hits, tube_bounds over the reals | as for cylinders |
| C120 | trd_hits, trd_bounds over the reals | convex solids as intersections of half spaces along the line |
| C121 | para_faces, para_hits, para_corners, corner_bounds over the reals | slabs of the normals as coordinates along the edges; the loop keeps the part of the line in the slabs seen so far |
| C122 | trap_vertices, trap_planes, trap_hits, corner_bounds over the reals | convex combinations of corners against half spaces, both ways |
| C123 | the enums, the packing and unpacking functions, the axis tables | case analysis over all orders |
| C124 | QuaternionFromEulerAngles | equality with the product of three axis quaternions |
| C125 | Matrix3DFromEulerAngles with the indexing operator | ring identities per order; moving axes refuted |
| C126 | EulerAnglesFromMatrix3D with a real atan2 | cofactor identities of rotation matrices, bounds near the pole |
| C127 | Matrix3DFromQuaternion, EulerAnglesFromQuaternion, ZXZrFromQ, XYZsFromQ | through C126; quaternions that are not unit refuted for the general form |
| C128 | the operators and operator[] | ring; bit masks as remainders; out of range refuted |
| C129 | the closed form with its linear and constant fallbacks and stable roots | antiderivative and splitting of the integral at the roots (Coquelicot RInt); bounds on the neglected part |
| C130 | weights, average, density and the two acceptance tests | Lorentz boosts in closed form, C129, integral of the clamped weight |
| C131 | the sampler with both rejection loops over a list of drawn numbers | induction over the loops, two boosts; refuted for a record whose mass is not the table's |
| C132 | signatures, sets of types, branching ratios and lifetimes | case analysis over types, arbitrary lists as sets; refuted: repeated and reordered secondaries have a width |
| C133 | mixture, nearest component, key and cache; the Romberg integral is a parameter | table of all keys with distinct rounded values, invariant of the cache; refuted for masses other than the table's |
| C134 | TrapezoidalIntegrator with its members, update and integrate; the exchange in the constructor acts on the parameters | induction on the level: the new midpoints halve the panels |
| C135 | the loop with its table of estimates, the two arrays of differences and the acceptance test | Euler-Maclaurin expansion of the trapezium rule on polynomials; the five-point extrapolation is exact on quartics in the squared step |
| C136 | the nested loops with their weights, the refinement loop and its two acceptance tests | sums over pairs of intervals; Simpson's rule telescopes on cubics |
| C137 | DMesonELoss::SampleFinalState with its Box-Muller loop, trial cap and rescaling of the momentum | algebra on four-momenta; induction on the trials |
| C138 | TotalCrossSection, DifferentialCrossSection, FinalStateProbability and the signatures; the quadrature is a parameter | Coquelicot integral of the truncated Gaussian; monotone logarithm |
| C139 | GetPossibleSignaturesFromParent and the lists of types | enumeration of the finite types against quantum numbers |
| C140 | TotalDecayWidth of a record and of a type, ZDecayWidth, the mixing matrix and the mass table | case analysis on the channels, linear arithmetic |
| C141 | SampleFinalState, DifferentialDecayWidth, FinalStateProbability | boosts and rotations of RkProofs, pair_kept of HnlProofs |
| C142 | ResolveDefineInOrder with its frames, loop depth and the effects of the elements; the evaluation of texts is a parameter | simulation in both directions between the stack machine and a big-step meaning |
| C143 | as for C142 | induction on the nodes and on the way the variable may still go; invariant of the stack |
| C144 | as for C142 | induction on the turns of the loop |
| C145 | StripPointerSuffix, FlatName, ParseFlatName on strings | the last 0x of a name; decimal numerals of the standard library |
| C146 | InstanceTracker with Store and Flatten, orders of hash maps as arguments | invariant of the tracker over the sequence; induction over the two loops of Flatten |
| C147 | Resolve, Lookup, ResolveAlias, the check for ambiguity | invariant of the tracker; final keys after Flatten |
| C148 | MergeFrom on lists of entries; equality of numbers, solids and placements is a parameter | pigeonhole for the search; invariant of the renames over the passes |
| C149 | as for C148 | the entries of C148 with equality |
| C150 | parseFlatIdx, lookupA, resolveCompRef, the sum of masses and the assignment into the map | direct computation over the list of entries; the tracker invariant of C146 for the masses; witnesses for repeated references and isotope mixtures |
| C151 | findComponent, resolve_component with its visited set, and the loop over materials | fuel bounded by the number of names with the visited set duplicate free; an inductive meaning of shares; absence of cycles from well-foundedness |
| C152 | BuildVolume with its visited set, AddSector, the placement of children, LoadDefaultSectors | fuel bounded by the number of volumes; an inductive listing of pieces with maps of coordinates; quaternion algebra of C47 and C48 for one step |
| C153 | the loop for unique names, AddSector, level++ | pigeonhole for the loop; invariant on the list of sectors; witness of a borrowed name |
| C154 | the parsing of the number by stoi and the loop over copies | field arithmetic on the positions; decimal round trip for the number; witness for expressions |
| C155 | the first pass, the deferral, the reverse dependencies and the stack of ready booleans | invariant of both passes against an inductive meaning of names; measure for the loop |
| C156 | the same model with pointer suffixes and repeated names | the direct case by computation; three counterexamples |
| C157 | the direction, the callback and the loop over sectors | tiling of the traversal, first segment that reaches the point, and a limit argument at boundaries |
| C158 | the same loop with targets and decays | the loop of C157, and the theorem on interaction depths of C30 |
| C159 | ComputeCDF as a recursive function from the list of energies to the list of (cumulative value, energy) pairs | induction over the energies, with the intervals skipped so far as invariant |
| C160 | SampleEnergy and GenerationProbability on the table of C159, with the interpolator of C55 | the exact value of a linear look-up, and the monotony of both columns |
| C161 | the sampled point, the initial position, the bounds and the probability as functions of the numbers drawn, on the cylinder of C117 | algebra of the shares; the crossings around an interior point from C117 |
| C162 | as for C161, with the crossings of C43 | algebra of the shares; the crossings around an interior point computed from the discriminant |
| C163 | getline, trim, the header checks and the rows as functions on the characters of the file; std::stod is a parameter | a declarative cut of the text at separators, proved equal to the loops by induction |
| C164 | Sample on the record of C07, with uninitialised arrays as an outcome of their own | the last value of each column by reverse induction; the index from the integer part |
| C165 | NormalizePhi, PhiInRange, InitialPhiState, ZAxisWedgeEntering, the two half planes | signs of the distances from the two half planes, in three cases by the extent |
| C166 | ComputeIntersections with has_phi_cut | invariant of the merging loop: both states are those just behind the last crossing |
| C167 | both loops over the tree with the vectors of process weighters (ProbModel) | induction over the tree with the initialization lemmas of C15 |
| C168 | reading, validation and constructor (PconeModel) | flags of the scan against a definition of rising and falling lists by positions |
| C169 | both walls of a section in one function (PconeModel.cone_hits) | the squared excess along the line as a quadratic, roots and slopes |
| C170 | lids, rings and the grouping loop (PconeModel.steps) | induction over the groups, case split over the order of radii |
| C171 | both bounds (YtabModel.y_min, y_max) | the kinematic condition as a quadratic in the fraction whose roots are the bounds |
| C172 | momenta in a frame along the primary (YtabModel.lepton, recoil) | roots of the quadratic of C171 |
| C173 | evaluation for a given mass and for an interaction (YtabModel.differential, differential_of) | case split over the range, with C171 |
| C174 | ComputeCosThetaLab with NaN and infinity as outcomes, the final state | algebra of the mass shells; Cauchy-Schwarz for completeness |
| C175 | the loop for the first point and the Metropolis-Hastings rounds | invariant of the rounds; a refutation for the first point, where a NaN passes |
| C176 | DifferentialCrossSection, TotalCrossSection and FinalStateProbability of a record | case distinction; refutations of the momentum transfer and of the target |
| C177 | SampleFinalState after its draws, NaN as None | algebra of the momentum transfer, Cauchy-Schwarz for completeness, a refutation for draws that are not allowed |
| C178 | TotalCrossSection, FinalStateProbability and the signature lists | computation and case distinction; a refutation for other targets |
| C179 | the slow rescaling helpers, kinematicallyAllowed and the exchanged momentum | algebra of the exchanged momentum and Cauchy-Schwarz |
| C180 | struck charm, spectator, fragmentation loop | sums of four-momenta; the threshold on the hadronic mass bounds the energy of the meson |
| C181 | the variables of a record, fragmentation fractions and FinalStateProbability | algebra; a refutation for the density |
| C182 | compute_cdf as functions of the index | computation; a refutation: the densities are read one place too low |
| C183 | both classes as one record with a flag for the check, splines as functions | case analysis; the threshold is compared with the invariant mass |
| C184 | both functions over the reals, roots of negative numbers as NaN | the bounds are a quadratic in y whose discriminant is the momentum across |
| C185 | differential and total cross section and the quotient | from C183 and C184 |
| C186 | the two loops as recursion over lists | induction over the primaries |
| C187 | processes as a heap of lists, the four constructors as one | induction over the sequence of constructions |
| C188 | vertex distributions overwrite each other in order | from the contents of the heap after a run |
| C189 | the quadratic with shifted origin, the linear case, the window in height and the flag, for both walls | roots of the quadratic are the zeros of the distance function of the specification, the flag is the sign of its slope; the tip is not modelled |
| C190 | both caps with the tolerance on the squares of the radii | direct; that the tolerance is the precision in length is refuted by a thin cone |
| C191 | constructors and box over the reals | convexity of the radius along the height; that no radius is negative is refuted |
| C192 | the list of hits of walls and caps, sorted and without near ones, and the walk over it with the half planes of a cut | walls and caps give the places where three conditions switch; the general lemma on three conditions gives the whole list |

## Findings

Where the English statement, or a natural extension of it, is false of the model,
a theorem gives a witness. One line each; the hypotheses of the positive theorems
exclude these cases.

* `C01_foreign_parent_refuted`: naming a parent that is not in the tree breaks the tree silently.
* `C01_same_datum_twice_refuted`: adding one shared datum to a tree twice breaks the numbering of nodes.
* `C03_cycle_accepted_refuted`: validation on load accepts cyclic parent links.
* `C03_unmirrored_accepted_refuted`: validation on load accepts daughter lists that do not mirror the parent links.
* `C04_legacy_null_refuted`: a null datum in a legacy archive is dereferenced instead of being rejected.
* `C05_after_fork_refuted`: in a forked child the claim fails: a thread that reads the old major id while another one is resetting the counters hands out ids twice, and repeats ids of the parent process.
* `C06_nan_refuted`: with a NaN member a record is not equal to itself although it is not less.
* `C07_direction_refuted`: a direction that is not a unit vector gives a momentum that does not fit energy and mass.
* `C07_mass_refuted`: momentum and kinetic energy determine the mass, but asking for it throws.
* `C07_momentum_refuted`: energy, kinetic energy and direction determine the momentum, but asking for it throws.
* `C07_nan_refuted`: an energy below the mass: the momentum is NaN and nothing is thrown.
* `C08_closest_refuted`: initial position, direction and initial distance set: the point returned is not the one at that distance before the initial position, nor the closest to the origin.
* `C08_nan_refuted`: a vertex at the initial position: the direction is NaN although nothing contradicts itself.
* `C08_stale_refuted`: in that case a direction derived from an older momentum may be used.
* `C08_undefined_refuted`: closest approach, initial position and length set: asking for the distance of the vertex reads a direction that was never written, unless the direction happened to be asked before.
* `C09_energy_refuted`: a secondary whose energy entry is zero does not move, whatever its momentum.
* `C09_length_refuted`: a record without length: finishing reads the member that was never written.
* `C09_rest_refuted`: a secondary at rest: its finished vertex is NaN, even for length zero.
* `C102_members_refuted`: transforms with different members are equal: logarithmic-symmetric ones from 1 and from 2 compare equal, one is less than the other, and they are different functions.
* `C102_null_refuted`: comparing a logarithmic-symmetric or a range transform with one of another class reads through a null pointer.
* `C102_operator_refuted`: equality of the linear operators is not symmetric: the plain one equals the dropping one but not conversely, and they are different functions.
* `C104_overflow_refuted`: far outside the data the conversion to an integer overflows.
* `C104_reversed_refuted`: descending data are taken as unsorted: the places returned are those in the ascending list, between whose values in the data the number does not lie.
* `C107_empty_refuted`: without data the loops run past the end.
* `C107_irregular_refuted`: of three points -10, 0 and 1, which are not regular, the metric sees only that the first is at its place: a regular indexer is selected, and -2 is put between the last two.
* `C108_edge_refuted`: a point on the edge between two triangles, in the middle of the data, is found in neither.
* `C108_node_refuted`: a data point is in the inside of no triangle, and none is found for it.
* `C108_outside_refuted`: for a point away from the data the search ends in a failed assertion, not in the null pointer.
* `C109_drop_refuted`: the operator that drops zeros takes the first value for the second: it misses an affine function with no zeros.
* `C109_node_refuted`: the interpolator throws at its own data points.
* `C109_transform_refuted`: with a transform of the coordinates the position is not transformed: a function linear in the logarithm is given at the exponential of the position.
* `C111_beyond_refuted`: the distance of a point beyond the end is more than the length of the path.
* `C111_frames_refuted`: a point less than a millimetre beyond the end is within the path in one frame only.
* `C113_many_refuted`: of more than 65535 triangles about one point the rest is never looked at.
* `C113_rounding_refuted`: a crossing is lost when the bounds of a node, rounded to the nearest float, do not hold its triangles.
* `C114_touch_refuted`: a ray that touches an edge of a closed mesh from outside is given one crossing, in or out as the sorting leaves it.
* `C115_flat_refuted`: a mesh without a single proper triangle is accepted.
* `C115_near_refuted`: corners as near as one likes may count as different.
* `C115_turned_refuted`: that faces next to each other are turned the same way is not tested.
* `C117_rim_refuted`: a line that passes the rim of a lid within the precision, outside of the cylinder, yields one exit and no entry: two crossings of which the second is taken for a copy of the first.
* `C118_pole_refuted`: with the cuts at the poles, a line that passes a pole within the precision, outside of the ellipsoid, yields one entry and no exit.
* `C118_tangent_refuted`: a line that touches the ellipsoid in one point yields one exit and no entry.
* `C119_rim_refuted`: a line that passes the rim of a lid within the precision, outside of the tube, leaves it before entering it.
* `C11_true_but_refuses_refuted`: after a failed attempt the injector converts to true although its quota is used up.
* `C11_zero_quota_refuted`: an injector with quota zero converts to true but refuses at once.
* `C120_edge_refuted`: a line that goes in through an edge enters twice.
* `C120_thin_refuted`: the sides of a thin trapezoid are not found, as the normals compared with the precision are as long as it is thick.
* `C121_parallel_refuted`: a line off parallel to a face by less than the precision that begins just beyond the plane of the face is found to miss the parallelepiped it goes through.
* `C122_twisted_refuted`: with sides that are not flat, a line between two corners is found to enter only halfway.
* `C122_wedge_refuted`: a wedge, whose lower end has no depth, is accepted; three of its faces, computed from corners that coincide, are lost, and a line across is inside from minus infinity to infinity.
* `C125_turning_refuted`: finding: for axes that turn with the body the matrix is not that of the angles: alpha and beta are swapped in place of alpha and gamma.
* `C126_close_refuted`: finding: within the threshold, but not at the pole, the angles are of another rotation.
* `C127_not_unit_refuted`: finding: the general form reads the elements of [GetMatrix], which are of a rotation only for a unit quaternion.
* `C128_out_of_bounds_refuted`: finding: a row or column of 4 or more that is not 3 modulo 4 reads an element in place of the exception.
* `C129_band_refuted`: in the band the closed form is not exact, whatever the interval: a small quadratic without other terms has area zero.
* `C12_zero_draw_refuted`: c12 does not extend to the draw 0, which the generator can produce: a collection with decays only then indexes an empty vector.
* `C131_mass_refuted`: the mass of the record is used for the boost but not in the rest frame: energy is not conserved if it is another.
* `C132_order_refuted`: types are compared as sets: the order that the sampler depends on is not checked.
* `C132_repeated_refuted`: types are compared as sets: two [Hadrons], which is no possible signature, have the width of one.
* `C133_key_refuted`: masses of the record other than the table's can share a key: a D0 lighter by 0.4 MeV with the heavier hadron takes the integral of the lighter hadron.
* `C134_sorted_refuted`: the exchange of the bounds in the constructor has no effect: given the bounds in descending order the integrator does not give the integral over the ordered interval.
* `C135_alias_refuted`: a smooth function that vanishes at the seventeen points of the first five levels is given the integral zero.
* `C135_zero_refuted`: the tolerance is relative to the value: an integral that is exactly zero, of a polynomial of degree eight, is never accepted and ends in an exception.
* `C136_small_refuted`: an integral smaller than the square of the tolerance is accepted at once: the value then misses the relative tolerance.
* `C137_momentum_refuted`: momentum is not conserved: a meson of mass 5 and momentum 12 that keeps 5.72 of its energy of 13 leaves a total momentum other than 12.
* `C138_negative_refuted`: far below one GeV the total cross section is negative.
* `C140_light_refuted`: in a Z lighter than two electrons only the neutrinos are open, and the sum of the widths at its mass is not the total width.
* `C140_mixed_refuted`: a decay that breaks lepton numbers, W to an electron and a muon antineutrino, has the full width, although it is not among the possible decays.
* `C142_sections_refuted`: in a document of 64 sections the loops of the first are left out without a word, although nothing is nested: the sections still to come count as depth.
* `C143_forever_refuted`: a loop from 1 to 3 whose body sets its variable back to 1 is never left: reading the file does not end.
* `C145_twice_refuted`: c145 is false of removing twice: a name with two addresses loses them one at a time, so that a name once stripped may be changed by the next reader.
* `C146_lost_refuted`: c146 is false of a name that looks like a number of another name: Fe is defined twice and Fe__2 once; then the second definition of Fe is lost.
* `C146_order_refuted`: c146 is false of such names even when each is defined once: what A means depends on the order of the hash map.
* `C147_shared_refuted`: c147 is false of names shared by elements and materials: the element Si is defined once and the material Si twice; flattening the elements makes the alias of the first material mean Si, which is no material.
* `C149_shallow_refuted`: c149 is false of two files that agree on the text of a volume but not on the solid that it mentions: the included volume silently becomes the volume of this file, with the solid of this file.
* `C150_isotopes_refuted`: c150 is false of elements given by isotopes: their mass is zero in the parser, so that water made of such oxygen is pure hydrogen.
* `C150_repeated_refuted`: c150 is false of a material that names a part twice: the second entry replaces the first one, so that the fractions do not add up to one.
* `C151_dropped_refuted`: c151 is false of elements without an atomic mass: they are dropped without a word, and what remains does not add up to one.
* `C153_borrowed_refuted`: c153 is false of a volume whose name a copy of another one has taken: the sector called A_2 is the second copy of A, and the volume A_2 is called A_2_2.
* `C154_expression_refuted`: c154 is false of numbers given by expressions, which the rest of the file may use: the leading digits count, and the name of a constant means no copies at all, without a warning.
* `C156_forward_refuted`: c156 is false of a suffixed name that is defined further down: an earlier solid of the same base name is taken in its place and nothing is deferred.
* `C156_repeated_refuted`: c156 is false of repeated names: a deferred boolean comes after the later solid of the same name, so the first instance is not the first in the document.
* `C156_suffix_refuted`: c156 is false of the operands of a deferred boolean: one named with its pointer suffix is found among several, but the boolean is made of the one stored last.
* `C157_entry_refuted`: c157 is false of the entry of a sector: the same list of crossings says that the entry point is in the sector entered, but its density is that of the sector left.
* `C159_nodes_refuted`: the nodes belonging to the cumulative values are never kept: the accessor answers with no nodes at all, however many cumulative values there are.
* `C15_incomplete_refuted`: if an injector lacks a secondary process the initialization stops there, and the weight of every event reads beyond the end of a vector, even if the event has no secondary. In another order the same injectors give a weight.
* `C15_no_events_refuted`: an injector asked for no event counts as one event in its own generation probability and as none in the weight, which is then infinite.
* `C15_two_roots_refuted`: with two roots the injector's own generation probability counts the number of events twice.
* `C160_first_refuted`: with unevenly spaced cumulative values, the number zero is looked up in the last bin instead of the first, and the energy sampled can be below the lower bound.
* `C160_gap_refuted`: energies where the flux is zero are sampled too, with a small probability: half-way through a part without flux the generation probability is zero.
* `C160_pdf_refuted`: within a bin the energies are sampled uniformly, whereas the generation probability follows the flux: half of the energies are sampled where it gives a quarter.
* `C161_edge_refuted`: the generator can return the lower end of its range: the point is then on the lower lid, where the generation probability is zero.
* `C161_sector_refuted`: the range of azimuths of the cylinder is ignored: a vertex can be sampled outside of it, and its generation probability there is positive.
* `C162_centre_refuted`: in a full sphere the first number 0 gives the centre, where the generation probability is zero.
* `C163_comment_refuted`: a comment above the header is taken as the header: the rows below are refused.
* `C164_threshold_refuted`: without an energy column the threshold is not applied to the rows, and a record drawn may have probability zero.
* `C166_parallel_refuted`: a line parallel to one of the half planes, on the outer side of it, and running towards the axis is taken to start inside the range; a quarter of a cylinder that it never meets then yields an entry and an exit, those of the whole cylinder.
* `C167_incomplete_refuted`: an injector without a process for a secondary of the weighter ends the initialization, and the probabilities for a later injector are read beyond the end of a vector, even for events without secondaries.
* `C16_interactions_refuted`: the process weighters compare addresses only, and the weighter only the particle types (Process.cxx:55-64) of the processes: a shared distribution whose density depends on the interactions is cancelled although the factors differ.
* `C170_end_refuted`: a repeated height at the lower end is accepted, but the ring between its radii is no lid: a line that goes in through it only leaves.
* `C171_light_refuted`: one term of the upper bound lacks its division by twice the squared energy; for light targets the upper part of the allowed range is cut off.
* `C172_edge_refuted`: the small number added to the inelasticity takes the upper end of the range out of it, and the transverse momentum is then the root of a negative number.
* `C173_massless_refuted`: the density of an interaction takes the mass of the primary for that of the target; for a massless primary it divides zero by zero.
* `C173_target_refuted`: for a massive one it is zero at inelasticities that the target allows.
* `C175_nan_refuted`: the check of the first point is false for a NaN, so a Q2 that leaves less energy than the mass is kept, and the momenta are then NaN.
* `C176_target_refuted`: the total cross section is asked for with the primary's type as the target's.
* `C176_transfer_refuted`: the outgoing momentum is replaced by that of the target, so the cross section is not evaluated at the momentum transfer of the record; records with different transfers have the same density.
* `C177_square_refuted`: the two variables are drawn from the whole unit square, of which kinematics allow only a part; outside it the momenta are NaN.
* `C178_target_refuted`: the target is not compared, so signatures with a nucleon are given for any other target.
* `C181_density_refuted`: the fraction of the meson divides the total but not the differential cross section, so the probability density of a signature is too large by the inverse of the fraction; for equal cross sections it is above one.
* `C182_shift_refuted`: the densities are read one place too low, so the table is not the integral by trapezia, whatever the density, as soon as it is positive at the first node.
* `C183_unsupported_refuted`: below the threshold a primary that the cross section does not support gets the cross section zero instead of the error (HNLDISFromSpline.cxx:258-265).
* `C184_dipole_refuted`: the check of the dipole class rejects points that a lepton can have: a lepton of 0.1 GeV from 100 GeV at x = 0.1, y = 0.5, like every point with x up to one half at any energy (HNLDipoleDISFromSpline.cxx:45-47, the recoil energy without the mass of the target).
* `C185_target_refuted`: for a target mass above the isoscalar one there are points with a differential cross section, and with enough energy for the target, whose probability is zero: the threshold does not look at the target mass (HNLDISFromSpline.cxx:364-369).
* `C187_again_refuted`: a second injector with the same parameters cannot be made from the same process: the first constructor has changed the process it was given (RangedLeptonInjector.cxx:43, Process.cxx:127-131).
* `C188_shared_refuted`: when two injectors are made from one process, the vertices of the first are placed by the distribution of the second while its bounds are those of its own, and both densities enter its generation probability (RangedLeptonInjector.cxx:42-44 and 60-62).
* `C18_law_tiny_refuted`: below an interaction depth of 1e-6 the sampled law is uniform, not the truncated exponential.
* `C190_reach_refuted`: the precision is added to the square of the radius, so the caps of a thin cone reach out much further than the precision: a line that misses the cone by twice its radius has crossings.
* `C191_negative_refuted`: only one outer radius has to be positive, so cones with a negative radius at the other end are made.
* `C22_set_accepts_equal_refuted`: the Set functions accept two equal distributions behind different pointers.
* `C22_set_physical_breaks_mirror_refuted`: the inherited SetPhysicalDistributions makes the two lists differ.
* `C23_infinite_refuted`: a sector whose box is not finite is taken to contain every point, whatever its geometry, for instance an infinite sphere with a hole.
* `C23_least_level_refuted`: a sector of finite extent at the least integer is never found.
* `C23_surface_refuted`: closer to a surface than the tolerance, the hierarchy and the geometry disagree: the point is inside according to the geometry, but not found.
* `C26_without_enclosing_sector_refuted`: without an enclosing sector the traversal stops at the first gap and a second, disjoint sector is never visited.
* `C27_touching_ray_refuted`: a ray that enters and leaves a sector at the same distance makes the traversal throw.
* `C29_zero_refuted`: column depth zero in a vacuum gives an infinite distance.
* `C30_decay_refuted`: decays and two sectors: the depth up to 2 m is 4, but the distance for depth 4 is 2.5 m.
* `C30_negative_refuted`: without targets a negative depth gives a positive distance.
* `C30_short_refuted`: over at most 0.01 mm the matter on the way is not counted.
* `C31_detector_interaction_refuted`: nor does DistanceForInteractionDepthToPoint.
* `C31_detector_refuted`: DistanceForColumnDepthToPoint in detector coordinates does not reverse the direction.
* `C32_exact_refuted`: rotating there and back with a quaternion of norm within 1e-12 of one changes lengths.
* `C33_equal_refuted`: the rotation of detector models is not compared.
* `C33_saved_refuted`: the rotation of a detector model is not saved.
* `C34_set_refuted`: a SetSectors call that throws does leave a mark: the sectors are replaced, two of them share a level, and queries still use the old hierarchy, here reading past the end of the new sectors.
* `C36_clip_refuted`: clipping a path that does not reach the detector turns its direction the wrong way.
* `C36_model_refuted`: after a change of the detector model the crossings with the old one are used.
* `C36_negative_refuted`: a ray of negative length is taken as it is.
* `C36_points_refuted`: two equal points give no direction; extending such a path changes the distance only.
* `C36_reuse_refuted`: the crossings of an older line are reused for a line close to it although they differ.
* `C36_shorten_refuted`: shortening an infinite path from its start to a finite length gives a distance that is NaN.
* `C36_unreached_refuted`: a depth that is never reached puts the last point at infinity without saying so.
* `C37_undo_refuted`: taking off more than there is cannot be undone.
* `C39_repeated_definition_refuted`: repeating a definition that lists protons changes its fractions.
* `C39_stale_component_refuted`: a redefined material keeps the fractions of components it no longer has.
* `C41_never_a_fraction_refuted`: GetTargetRadiationFraction never gives a fraction: a present target gives 0/0, an absent one throws.
* `C41_witness_refuted`: the same for single targets.
* `C43_unstable_refuted`: with no more than sorting, a line that grazes the sphere just ahead of the origin may be told to leave it before entering it.
* `C45_unstable_refuted`: a sort that is not stable may exchange two crossings of one operand at the same distance, and the combination is then never left.
* `C48_lengths_exact_refuted`: the shortcut for norms close to one changes lengths.
* `C49_refuted`: q *= r computes r * q, and q + s multiplies.
* `C50_antiparallel_x_refuted`: the rotation between antiparallel vectors along the x axis is the zero quaternion.
* `C51_normalized_refuted`: a normalised vector is not equal to the same vector built from its coordinates.
* `C52_small_shift_refuted`: a polynomial is not shifted at all by amounts up to 1e-9.
* `C53_flat_root_refuted`: Newton-Raphson started at a root with zero slope gives NaN.
* `C54_flat_exponential_refuted`: an exponential of slope zero is a constant density without an integral.
* `C54_inverse_with_constant_refuted`: the constant is integrated from the zero of the axis instead of from the start: a ray starting at coordinate 1 in density 1 plus constant 1 gets length 1/2 for the integral 2, which is reached after length 1.
* `C54_perpendicular_refuted`: perpendicular to the axis: 0/0, although the density is the number 1 everywhere.
* `C55_copy_refuted`: a copy of an interpolator in logarithmic mode has lost its mask of zeroes, although the original answers.
* `C55_first_refuted`: the first entry of an unevenly spaced table is not reproduced: the look-up extrapolates from the last bin.
* `C55_nearly_even_refuted`: a table whose spacing is even only to within the tolerance is treated as even, and an entry is not reproduced.
* `C55_negative_refuted`: a negative entry is not reproduced: results are cut off at zero.
* `C55_order_refuted`: in logarithmic mode the marks of zero values stay in the order of the table: an unsorted table gives another function than the sorted one.
* `C55_zero_refuted`: a zero entry of a table that is even in the logarithm is not reproduced.
* `C57_power_law_refuted`: PowerLaw leaves its range: the variate is stretched to the range before use.
* `C58_outside_refuted`: the density of a power law is not cut to the energy range.
* `C58_single_refuted`: with a single energy every other energy has density one.
* `C59_before_refuted`: a vertex half a millimetre before the start of the path has a positive density although none is drawn there.
* `C60_cone_refuted`: cones about the same axis are never less, whatever their angles.
* `C60_constant_refuted`: a normalization constant equals any distribution with its normalization, but not the other way around, and it is ordered before or after it.
* `C60_copy_refuted`: equality of directions is not reflexive on copies (a direction is not normalized).
* `C60_direction_refuted`: different fixed directions are not ordered.
* `C60_fiducial_refuted`: equality does not see the fiducial volume and the normalization.
* `C60_mass_refuted`: [less] of the masses tests equality: every mass is less than itself, and different masses are not ordered.
* `C60_normalization_refuted`: distributions with different normalizations can be equal.
* `C60_radius_refuted`: the radius, or the origin, is compared with itself.
* `C60_range_refuted`: two range distributions, each less than the other.
* `C60_tolerance_refuted`: equality of unit directions is not transitive.
* `C61_down_refuted`: straight down the rotation is made of NaNs: the comparison meant for that case compares the radius one of the normalised axis with the radius zero of a new vector and always fails.
* `C61_edge_refuted`: the edge of the cone is drawn with the variate zero and has density zero.
* `C61_length_refuted`: an axis that is not a unit vector is normalised for the density but not for the rotation: the directions drawn around (2,0,0) lie around (0.8,0,-0.6) and have density zero.
* `C62_column_refuted`: a column beyond the last is not refused: the element is taken from the next row.
* `C62_index_refuted`: the index of a matrix element is cut at the last comma, even inside a call.
* `C62_line_break_refuted`: a line break between the name of a function and its parenthesis is not skipped.
* `C62_number_name_refuted`: a constant called inf (or nan) is hidden when it stands alone: strtod reads it as a number. So is a call of an unknown function nan.
* `C62_range_refuted`: a numeral out of range is an error when it stands alone, but not inside an expression.
* `C63_malformed_refuted`: malformed strings are accepted: operators may follow their operands, the argument of a function may stand before it, and the empty string counts as zero.
* `C63_terminates_refuted`: a point that is not followed by a digit and does not belong to a numeral keeps the tokenizer in its loop for ever.
* `C64_deep_refuted`: loops nested deeper than 64 levels are left in the document.
* `C64_empty_name_refuted`: with the empty name, which a loop without the attribute for has, the substitution never ends.
* `C64_shadow_refuted`: an inner loop that reuses the name of the outer variable has its own variable renamed to the value of the outer one, and then replaces the numerals equal to that value.
* `C64_stale_refuted`: the brackets of a nested loop are evaluated while the outer loop is unrolled, before the inner variable has its values: with a value left over from an earlier loop over j, both copies get the same name; without one, an error is recorded for each copy.
* `C64_unnamed_refuted`: a loop without the attribute for never ends if its body has an attribute.
* `C65_not_a_unit_refuted`: names that are not units are accepted for a quantity: the factor of unit="pi" is pi; the name of the second, s, is not, although ns, us and ms are; a mass has no type and gets an internal factor.
* `C65_second_refuted`: the unit s of time is not known, although ns, us and ms are.
* `C67_prefilled_refuted`: for an arbitrary pre-filled registry the claim is false: giving out ids from 700 ignores the ids already in use.
* `C70_antinucleus_refuted`: antinuclei: the sign shifts the fields, so anti-carbon-12 reads as 601 neutrons.
* `C70_prefix_refuted`: codes that are not nuclear codes are accepted.
* `C71_truncated_file_refuted`: reading a material file that is cut short after a newline never ends.
* `C74_fixed_refuted`: a fixed direction given with another length than one is drawn but has probability zero: the constructor does not normalise it.
* `C77_tiny_refuted`: the position density is not exact below an interaction depth of 1e-6.
* `C78_exponent_refuted`: a variable beginning with e is replaced inside a numeral such as 5.e1.
* `C78_negative_refuted`: a negative value is put in without parentheses: i^2 with i = -3 becomes -3^2, which is -9.
* `C79_place_refuted`: the spherical coordinates, set only on request, take part: the same place is not always equal.
* `C80_rest_refuted`: a particle at rest is said to reach a vertex elsewhere at once.
* `C81_default_refuted`: a particle whose kinematics are not known comes out at rest at the origin.
* `C82_nan_refuted`: an energy below the mass: the momentum is NaN and nothing is thrown.
* `C85_integer_abs_refuted`: where abs means the integer function, directions less than 90 degrees apart are taken as equal.
* `C85_takes_refuted`: directions closer than about 4.5e-5 are taken as equal: the rotation is the identity.
* `C86_mass_refuted`: if the record's mass is not the mass of the decay model, energy is not conserved.
* `C87_at_rest_refuted`: at rest the code compares with a zero direction, so the cosine is always taken as zero.
* `C87_integer_abs_refuted`: where abs means the integer function, every direction less than 90 degrees off the x axis is concerned.
* `C87_near_axis_refuted`: for directions within 4.5e-5 of the x axis the drawn cosine is not the one between photon and parent.
* `C88_other_parent_refuted`: the total width does not depend on the parent; a parent without signatures has one too.
* `C89_reported_density_refuted`: a sampler told that its proposals are flat when they are not does not sample the likelihood.
* `C91_conservation_refuted`: energy is not conserved.
* `C91_law_refuted`: the rounds do not balance the cross section: y is not drawn from it.
* `C91_never_set_refuted`: if no round accepts, y keeps its starting value 0, which was never proposed.
* `C91_past_limit_refuted`: the small number added to y can take it past its limit; the electron is then not a number.
* `C91_weight_refuted`: the weight of a sampled record is not the density at the y it was made for.
* `C92_target_mass_refuted`: when the target mass of the record is not the one of the table, energy need not be conserved at an allowed point.
* `C94_three_neutrinos_refuted`: the three neutrinos of an invisible decay have the momentum as energy: the mass of the parent is lost.
* `C94_threshold_refuted`: below threshold the square root is of a negative number.
* `C95_sign_refuted`: the sign of the asymmetry is overwritten by the one of the helicity: wrong for a vector meson of more than 0.7 times the parent's mass.
* `C96_end_refuted`: at the upper end of the first variable the conversion divides zero by zero.
* `C97_flat_refuted`: the proposals are given to the sampler with density 1, but they do not fill the allowed region evenly.
* `C98_boosted_refuted`: angles of the laboratory are used in a formula for the rest frame: for a moving particle the width can be negative for one helicity.
* `C98_flavours_refuted`: for a muon and a positron the masses are paired with the wrong invariants: at allowed points the width is negative for both helicities.
* `C98_nan_refuted`: for an electron and an antimuon the width is the square root of a negative number at allowed points.
* `C99_outside_refuted`: a query outside the box of the tree is a failed assertion, not an empty answer.

## Assumptions of each theorem

As printed by `Print Assumptions`; nothing but the following axioms of the standard
library occurs: `ClassicalDedekindReals.sig_forall_dec`,
`ClassicalDedekindReals.sig_not_dec`,
`FunctionalExtensionality.functional_extensionality_dep`, `Classical_Prop.classic`.

* Closed under the global context (161 theorems):
  C01_additions_succeed, C01_foreign_parent_refuted, C01_same_datum_twice_refuted,
  C01_well_formed, C02_depth_counts_ancestors, C02_depth_terminates, C03_accepted_in_range,
  C03_accepted_unshared, C03_cycle_accepted_refuted, C03_round_trip,
  C03_unmirrored_accepted_refuted, C04_legacy_null_refuted, C04_legacy_shared_rejected,
  C04_legacy_topology, C05_after_fork_refuted, C05_minor_unique, C05_one_major, C05_unique,
  C06_nan_refuted, C06_particle_id_ordered, C06_record_equality, C06_record_ordered,
  C06_signature_ordered, C102_equivalence, C10_calls_counted, C10_counters_ordered,
  C10_refuses_at_quota, C10_refuses_only_at_quota, C11_false_means_refused,
  C11_safe_without_failures_partial, C11_true_but_refuses_refuted, C11_zero_quota_refuted,
  C123_axes, C123_distinct, C123_letters, C123_onto, C128_bounds, C128_index, C128_write,
  C132_conserved, C138_signatures, C139_conjugate, C139_exactly, C139_once, C13_event_faithful,
  C13_no_undefined_behaviour, C145_meaning, C145_numbered, C145_strip, C145_twice_refuted,
  C146_kept, C146_lost_refuted, C146_order_refuted, C146_others, C146_sole, C147_lookup,
  C147_reference, C147_resolved, C147_shared_refuted, C148_entries, C148_names, C148_parent,
  C149_faithful, C149_shallow_refuted, C14_exit, C14_registries, C153_name, C154_number,
  C155_ends, C155_meaning, C155_order, C155_skipped, C156_at_once, C156_forward_refuted,
  C156_repeated_refuted, C156_suffix_refuted, C178_parents, C178_signatures,
  C178_target_refuted, C186_signatures, C187_again_refuted, C187_construct, C187_run,
  C188_density, C188_placed, C188_shared_refuted, C20_generic, C20_index, C20_targets_sorted,
  C20_unknown_target, C22_add_accepts_exactly_new, C22_adds_hold_no_equal_partial,
  C22_mirror_partial, C22_rejected_call_changes_nothing, C22_set_accepts_equal_refuted,
  C22_set_physical_breaks_mirror_refuted, C25_comparator_decides_order,
  C25_comparator_strict_weak_order, C25_sort_unique, C26_any_callback, C26_containing_sector,
  C26_forward_tiling, C26_reverse_tiling, C26_without_enclosing_sector_refuted,
  C27_no_throw_partial, C27_touching_ray_refuted, C35_outer_bounds, C60_column_partial,
  C60_constants, C60_decay_partial, C60_distinct, C60_ordered, C60_range_partial,
  C60_source_partial, C62_column_refuted, C62_element, C62_entry, C62_index_refuted,
  C62_line_break_refuted, C62_number_name_refuted, C62_range_refuted, C62_value, C63_balanced,
  C63_counts, C63_depth, C63_malformed_refuted, C63_terminates, C63_terminates_refuted,
  C64_brackets, C64_deep_refuted, C64_empty_name_refuted, C64_limit, C64_no_loop,
  C64_shadow_refuted, C64_stale_refuted, C64_substitution, C64_terminates, C64_unnamed_refuted,
  C64_unroll, C65_resolve, C66_number_round_trip, C66_numbers_unique, C67_ids, C67_key,
  C67_names, C67_order_independent, C67_prefilled_kept, C67_prefilled_refuted,
  C69_decode_encode, C69_odd_rejected, C69_round_trip, C70_antinucleus_refuted, C70_decodes,
  C70_prefix_refuted, C70_rejects_short, C78_exponent_refuted, C78_meaning,
  C78_negative_refuted, C79_equality, C79_ordered, C79_place_refuted.
* `sig_forall_dec` (15 theorems):
  C128_out_of_bounds_refuted, C150_mass, C151_ends, C151_meaning, C167_index, C167_missing,
  C16_cancel, C16_same_interactions, C33_unrotated_partial, C38_firsts, C71_block,
  C71_ignored_lines, C72_accumulates, C72_event_weights, C82_new.
* `sig_forall_dec`, `functional_extensionality_dep` (203 theorems):
  C100_once, C100_pairs, C101_archive, C101_least, C102_null_refuted, C102_operator_refuted,
  C102_order_partial, C103_bilinear, C103_drop_bilinear, C103_drop_linear, C103_linear,
  C104_constructed, C104_located, C104_overflow_refuted, C104_reversed_refuted, C104_within,
  C105_located, C108_edge_refuted, C108_inside, C108_lookup, C108_node_refuted,
  C108_outside_refuted, C108_the_triangle, C109_affine, C109_drop_refuted, C109_edge,
  C109_order, C109_weights, C112_along, C112_found, C112_hit, C113_build, C113_crossings,
  C113_safe, C113_search, C114_covered, C114_given, C115_closed, C115_empty, C115_flat_refuted,
  C115_near_refuted, C115_place, C115_report, C115_turned_refuted, C116_balance, C116_even,
  C116_found, C117_bounds, C117_radii, C118_make, C120_bounds, C120_edge_refuted,
  C120_thin_refuted, C122_valid, C128_product, C12_interval_selects, C12_kind,
  C12_no_rate_throws, C12_selection, C12_zero_draw_refuted, C132_conjugate, C132_modes,
  C132_others, C132_repeated_refuted, C132_total, C133_keys, C133_mixture, C134_refinement,
  C134_reversed, C134_sorted_refuted, C134_trapezium, C135_reversed, C136_converges,
  C136_zero_tolerance, C137_accept, C141_cosine, C142_meaning, C142_result, C143_built_in,
  C143_stops, C144_left, C144_step, C144_unrolled, C144_values, C150_isotopes_refuted, C150_one,
  C150_ratio, C150_repeated_refuted, C150_shares, C151_cycle, C151_dropped_refuted,
  C151_material, C151_one, C151_resolves, C158_decays, C159_cumulative, C159_rises, C159_steps,
  C163_comment_refuted, C163_load, C163_strict, C164_record, C164_share, C170_steps,
  C176_target_refuted, C178_length, C17_equals_generator_frequency, C17_normalised, C17_share,
  C17_unit, C181_density_refuted, C181_total, C182_monotone_partial, C182_shift_refuted,
  C182_table_partial, C190_cap, C190_reach_refuted, C191_box, C191_make, C191_negative_refuted,
  C20_totals, C21_harmonic, C21_order, C21_width, C29_negative, C30_negative_partial,
  C30_negative_refuted, C31_reversed, C33_rest_kept, C38_ids_stay, C38_names_and_ids,
  C39_fractions_partial, C39_radiation_length, C39_redefinition_partial,
  C39_repeated_definition_refuted, C39_stale_component_refuted, C39_targets, C40_balance,
  C40_derived, C41_never_a_fraction_refuted, C41_witness_refuted, C42_box, C42_delimits,
  C42_snap, C43_radii, C45_crossings, C45_state, C45_unstable_refuted, C46_expand, C46_ray,
  C48_group, C48_product, C49_others_agree, C49_refuted, C51_equal_means_same_coordinates,
  C52_equality, C52_evaluate, C52_scale, C52_shift_partial, C52_small_shift_refuted, C53_finds,
  C53_flat_root_refuted, C53_stays_inside_partial, C53_throws, C54_constant_integral,
  C54_constant_inverse, C54_constant_inverse_with_constant, C56_degenerate, C56_whole,
  C57_uniform, C57_uniform_onto, C60_cone_refuted, C60_constant_refuted, C60_copy_refuted,
  C60_direction_refuted, C60_fiducial_refuted, C60_mass_refuted, C60_normalization_refuted,
  C60_radius_refuted, C60_range_refuted, C60_tolerance_refuted, C68_import, C68_joined,
  C68_round_trip, C68_strict, C71_complete_file, C71_truncated_file_refuted, C72_weight_sums,
  C75_generation, C75_rounds, C76_sample, C80_flight, C89_member, C89_other_law,
  C89_reported_density_refuted, C89_stationary, C89_support, C93_draw, C95_size, C99_limited,
  C99_outside_refuted, C99_query, C99_refused.
* `sig_forall_dec`, `sig_not_dec`, `functional_extensionality_dep` (288 theorems):
  C07_consistent, C07_derived, C07_determined, C07_direction_refuted, C07_mass_refuted,
  C07_momentum_refuted, C07_nan_refuted, C07_order, C07_set, C07_sound, C07_throws,
  C08_closest_refuted, C08_consistent, C08_nan_refuted, C08_order, C08_sound, C08_stale_refuted,
  C08_throws, C08_undefined_refuted, C09_chain, C09_energy_refuted, C09_exists, C09_finalize,
  C09_frame, C09_length_refuted, C09_record, C09_rest_refuted, C09_time_set, C110_by,
  C110_column, C110_from_end, C110_from_start, C110_reach, C110_reach_bounds, C110_split,
  C110_upto, C111_beyond_refuted, C111_distance, C111_frames, C111_frames_refuted,
  C111_infinite, C111_within, C111_within_detector, C117_rim_refuted, C118_bounds,
  C118_pole_refuted, C118_tangent_refuted, C119_bounds, C119_rim_refuted, C121_bounds,
  C121_crossings, C121_make, C121_parallel_refuted, C122_bounds, C122_crossings, C122_planes,
  C122_twisted_refuted, C122_wedge_refuted, C124_special, C124_turns, C125_static, C125_turning,
  C125_turning_refuted, C127_matrix, C129_empty, C130_density, C130_weight, C133_cache,
  C133_key_refuted, C140_light_refuted, C140_mixed_refuted, C140_nine_channels, C140_open,
  C140_record, C140_total, C141_density, C142_sections_refuted, C143_forever_refuted,
  C152_child, C152_determined, C152_loads, C152_pieces, C153_borrowed_refuted, C153_inside,
  C153_levels, C154_copies, C154_even, C154_expression_refuted, C157_entry_refuted, C157_inside,
  C157_mass, C157_particles, C158_boundary, C158_depth, C158_rate, C161_density,
  C161_edge_refuted, C161_point, C161_sector_refuted, C161_uniform, C164_probability,
  C164_threshold_refuted, C165_extent, C165_normal, C168_absent, C168_accepted, C168_rising,
  C169_parallel, C169_wall, C170_end_refuted, C170_stack, C171_light_refuted, C171_range,
  C171_sound, C172_edge_refuted, C172_final, C173_massless_refuted, C173_table,
  C173_target_refuted, C174_complete, C174_final, C176_quotient, C176_transfer_partial,
  C176_transfer_refuted, C177_complete, C177_final, C177_square_refuted, C179_allowed,
  C179_lepton, C180_final, C181_variables, C183_threshold, C184_dipole_refuted, C184_dipole_x,
  C184_exact, C184_sound, C184_threshold, C189_parallel, C189_wall, C23_containing,
  C23_infinite_refuted, C23_least_level_refuted, C23_shapes, C23_surface_refuted,
  C24_intersections, C24_shapes, C28_additive, C28_any_line, C28_depth, C28_monotone,
  C28_nonnegative, C28_positive, C28_symmetric, C28_zero, C29_beyond, C29_constant, C29_inverse,
  C29_zero_refuted, C30_decay_refuted, C30_depth, C30_inverse_partial, C30_no_targets,
  C30_one_sector_partial, C30_short_refuted, C30_targets, C31_detector_interaction_refuted,
  C31_detector_refuted, C31_to_point, C32_exact_refuted, C32_inverse, C32_near,
  C33_equal_refuted, C33_saved_refuted, C34_add, C34_registered, C34_set, C34_set_refuted,
  C36_clip_refuted, C36_column, C36_consistent, C36_crossings, C36_depth, C36_distance,
  C36_model_refuted, C36_negative_refuted, C36_points_refuted, C36_reuse_refuted,
  C36_shorten_refuted, C36_unreached_refuted, C37_clamp_end, C37_clamp_start, C37_flip, C37_to,
  C37_undo_end, C37_undo_refuted, C37_undo_start, C43_shell, C43_unstable_refuted,
  C44_bracketing, C44_shapes, C45_shapes, C46_shapes, C46_world, C47_identity_flag, C47_maps,
  C47_valid, C48_axis_angle, C48_back, C48_composition, C48_inverse, C48_lengths,
  C48_lengths_exact_refuted, C48_matrix, C48_matrix_round_trip, C48_rotate_is_conjugation,
  C48_rotate_quaternion, C48_rotation, C50_antiparallel_x_refuted, C50_between_partial,
  C51_normalized_refuted, C51_plain_vectors_partial, C52_antiderivative, C52_derivative,
  C52_integral, C53_brackets_root, C54_flat_exponential_refuted, C54_integral_between_points,
  C54_inverse_with_constant_refuted, C54_perpendicular_refuted, C59_disk, C59_outside,
  C65_angle, C65_guard_complete, C65_guard_sound, C65_length, C65_not_a_unit_refuted,
  C65_quantity, C65_second_refuted, C73_action, C73_products, C74_fixed_refuted, C74_other,
  C74_own_partial, C80_available, C80_finalize, C80_rest_refuted, C80_time, C81_default_refuted,
  C81_particle, C82_nan_refuted, C82_order, C82_set, C82_sound, C82_throws, C83_finalize,
  C83_frame, C83_succeeds, C84_constructors, C84_lab_undoes_rest, C84_lorentz, C84_product,
  C84_rest, C85_integer_abs_refuted, C85_proper, C85_takes_nearly, C85_takes_partial,
  C85_takes_refuted, C88_length, C88_lengths, C88_other_parent_refuted, C88_widths,
  C90_electron, C90_electron_limit, C90_record_formula, C92_allowed_exact, C92_products,
  C92_target_mass_refuted, C94_three_momenta, C94_three_neutrinos_refuted, C96_end_refuted,
  C96_kept, C96_sampled, C97_complete, C97_limits, C98_average, C98_boosted_refuted,
  C98_flavours_refuted, C98_nan_refuted.
* `sig_forall_dec`, `sig_not_dec`, `classic`, `functional_extensionality_dep` (192 theorems):
  C101_domain, C101_inverse, C101_order, C102_members_refuted, C105_transformed, C106_corners,
  C106_full, C106_regular, C107_empty_refuted, C107_equal_steps_partial, C107_irregular_refuted,
  C109_between, C109_exact, C109_interpolator, C109_node_refuted, C109_transform_refuted,
  C113_many_refuted, C113_rounding_refuted, C114_touch_refuted, C117_crossings, C118_crossings,
  C119_crossings, C120_crossings, C126_close_refuted, C126_near, C126_never_throws,
  C126_recovers, C127_not_unit_refuted, C127_special, C127_unit, C129_band_refuted, C129_close,
  C129_exact, C130_average, C130_close, C131_conserved, C131_hadrons, C131_mass_refuted,
  C131_transfer, C132_order_refuted, C133_value, C135_alias_refuted, C135_converges, C135_exact,
  C135_zero_refuted, C136_exact, C136_small_refuted, C137_at_rest, C137_cap,
  C137_momentum_refuted, C137_reached, C137_sampled, C138_negative_refuted, C138_normalised,
  C138_sampled_positive, C138_support, C138_total, C141_kept, C159_nodes_refuted,
  C15_generation, C15_incomplete_refuted, C15_missing, C15_no_events_refuted, C15_order,
  C15_split, C15_two_roots_refuted, C15_weight, C160_density, C160_first_refuted,
  C160_gap_refuted, C160_pdf_refuted, C160_quantile, C160_sample, C161_start,
  C162_centre_refuted, C162_density, C162_point, C162_start, C162_uniform, C165_faces,
  C165_range, C165_start, C166_any, C166_crossings, C166_parallel_refuted, C166_whole,
  C167_incomplete_refuted, C167_interaction, C167_survival, C16_event, C16_interactions_refuted,
  C16_process, C175_chain, C175_nan_refuted, C175_rule, C175_sample, C183_total,
  C183_unsupported_refuted, C185_quotient, C185_target_refuted, C185_zero, C18_bijection,
  C18_density, C18_generation, C18_law, C18_law_tiny, C18_law_tiny_refuted, C18_position,
  C192_crossings, C192_cut, C19_interaction, C19_log, C19_one_minus_exp, C19_series,
  C19_survival, C19_survival_clipped, C28_densities, C53_accuracy_partial, C54_antiderivative,
  C54_antiderivative_1d, C54_derivative, C54_integral_partial, C54_inverse_partial,
  C54_inverse_with_constant_partial, C54_radial_derivative, C54_radial_inverse_partial,
  C54_radial_inverse_with_constant_partial, C55_between, C55_copy_refuted, C55_first_refuted,
  C55_nearly_even_refuted, C55_negative_refuted, C55_nodes_even, C55_nodes_log_even,
  C55_nodes_uneven_partial, C55_order_refuted, C55_repeated, C55_zero_refuted, C56_additive,
  C56_integral, C57_power_law_never, C57_power_law_partial, C57_power_law_refuted, C58_energy,
  C58_outside_refuted, C58_positive_everywhere, C58_single, C58_single_refuted, C58_total,
  C59_before_refuted, C59_bijection, C59_density, C59_generation, C59_total, C61_cover_partial,
  C61_density, C61_down_refuted, C61_edge_refuted, C61_length_refuted, C61_sample_partial,
  C61_total, C74_isotropic, C75_cdf, C75_inverse, C76_integral, C77_product, C77_tiny_refuted,
  C86_conserved, C86_mass_refuted, C87_at_rest_refuted, C87_drawn, C87_integer_abs_refuted,
  C87_near_axis_refuted, C87_weight_partial, C91_balance, C91_conservation_refuted,
  C91_law_refuted, C91_neutrino_unchanged, C91_never_set_refuted, C91_past_limit_refuted,
  C91_proposal, C91_weight_refuted, C92_record, C93_balance, C93_nan_start, C93_sampled,
  C94_kept, C94_threshold_refuted, C95_drawn, C95_sign_refuted, C95_weight, C97_flat_refuted.
