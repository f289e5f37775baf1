{"id": "C01", "title": "Interaction trees stay well formed as they grow", "statement": "Starting from an empty InteractionTree, after any sequence of add_entry calls whose parent argument is null or a datum previously returned by the same tree (with fresh records/data), every entry's node_id is its position, every parent index is kNoParent or strictly smaller than the entry's own position, and p lists d as a daughter exactly once if and only if d names p as its parent.", "quantifier": "every finite sequence of add_entry calls with any choice of earlier parents", "why_tests_cant": "The claim is an invariant of arbitrarily long construction histories; a test fixes one tree shape.", "anchors": ["projects/dataclasses/private/InteractionTree.cxx: InteractionTree::add_entry", "projects/dataclasses/public/SIREN/dataclasses/InteractionTree.h: InteractionTreeDatum"]}
{"id": "C02", "title": "InteractionTreeDatum::depth counts ancestors and always terminates", "statement": "On any tree array whatever (including corrupt or cyclic parent indices) depth() returns or throws after at most size()+1 steps; on a tree built by add_entry it never throws and equals the number of proper ancestors of the datum.", "quantifier": "every parent-index array and every starting datum", "why_tests_cant": "Termination on adversarial/cyclic links and exactness on unbounded depth cannot be sampled.", "anchors": ["projects/dataclasses/private/InteractionTree.cxx: InteractionTreeDatum::depth"]}
{"id": "C03", "title": "Tree save/load round trip and validation", "statement": "Saving a tree built by add_entry and loading it again yields an equal tree (same topology, same records); whatever bytes were loaded, a tree that load accepts has all indices in range, so following parent or daughter links never leaves the array. A tree accepted by load also has an acyclic parent relation mirrored by the daughter lists.", "quantifier": "every tree built through the API and every deserialised index structure", "why_tests_cant": "The space of loaded index structures is unbounded and includes hand-corrupted files.", "anchors": ["projects/dataclasses/private/InteractionTree.cxx: validate_indices, operator==", "projects/dataclasses/public/SIREN/dataclasses/InteractionTree.h: save, load"]}
{"id": "C04", "title": "Legacy (pointer based) trees load with the right topology", "statement": "Loading a version-0 archive, in which parents and daughters are stored as shared pointers, reconstructs node_id/parent_index/daughter_indices that describe exactly the pointer topology, for every tree whose pointers stay inside the tree and whose data are pairwise distinct.", "quantifier": "every version-0 pointer graph", "why_tests_cant": "Needs all pointer graphs, including sharing and forward references.", "anchors": ["projects/dataclasses/private/InteractionTree.cxx: rebuild_indices_from_legacy"]}
{"id": "C05", "title": "ParticleID::GenerateID never hands out the same id twice", "statement": "Within one process, under any interleaving of calls from any number of threads (fewer than 2^31 calls in total), the ids returned by GenerateID are pairwise distinct.", "quantifier": "every schedule of any number of concurrent GenerateID calls", "why_tests_cant": "Races depend on schedules that a test cannot enumerate.", "anchors": ["projects/dataclasses/private/ParticleID.cxx: ParticleID::GenerateID"]}
{"id": "C06", "title": "Record and signature comparison is a total order consistent with equality", "statement": "operator< on InteractionSignature, ParticleID and InteractionRecord is irreflexive, transitive and total with respect to operator== (on NaN-free values), so these types are usable as ordered-container keys.", "quantifier": "every pair and triple of values", "why_tests_cant": "An order law quantifies over all triples of an unbounded type.", "anchors": ["projects/dataclasses/private/InteractionSignature.cxx: operator<, operator==", "projects/dataclasses/private/ParticleID.cxx: operator<", "projects/dataclasses/private/InteractionRecord.cxx: InteractionRecord::operator<"]}
{"id": "C07", "title": "Primary kinematics derived from any sufficient subset of inputs are mutually consistent", "statement": "Whichever of mass, energy, kinetic energy, momentum and direction were set on a PrimaryDistributionRecord, and in whichever order they are read, every value the getters return was either set explicitly or satisfies E = m + T and E^2 = m^2 + |p|^2 and p parallel to the direction; explicitly set values are returned unchanged; and the getters throw instead of inventing a value when the inputs do not determine it.", "quantifier": "every subset of set fields, every order of getter calls, all real values", "why_tests_cant": "Sixteen-plus flag combinations times all real inputs times call orders.", "anchors": ["projects/dataclasses/private/InteractionRecord.cxx: PrimaryDistributionRecord::UpdateMass, UpdateEnergy, UpdateKineticEnergy, UpdateDirection, UpdateMomentum"]}
{"id": "C08", "title": "Primary positions derived from any sufficient subset of inputs lie on one line", "statement": "Initial position, interaction vertex, length, direction, point of closest approach and vertex/initial distances returned by PrimaryDistributionRecord are mutually consistent: vertex = initial position + length * direction, and each derived point lies on the same line at its stated distance.", "quantifier": "every subset of set fields and all real values", "why_tests_cant": "The derivation has many branches and the relation must hold for all reals.", "anchors": ["projects/dataclasses/private/InteractionRecord.cxx: UpdateLength, UpdateInitialPosition, UpdateInteractionVertex, UpdatePointOfClosestApproach, UpdateVertexDistanceFromClosestApproach, UpdateInitialDistanceFromClosestApproach"]}
{"id": "C09", "title": "Secondary records inherit their parent's slot", "statement": "CreateSecondaryRecord(i) yields a record whose primary type, mass, momentum, helicity, id and initial position equal the i-th secondary (and interaction vertex) of the parent, and whose finalized vertex is initial position + length * direction with interaction time later than the parent's by the flight time.", "quantifier": "every parent record, every slot index, every length", "why_tests_cant": "All slots of records of arbitrary size and all real kinematics.", "anchors": ["projects/dataclasses/private/InteractionRecord.cxx: SecondaryDistributionRecord"]}
{"id": "C10", "title": "Injector quota accounting", "statement": "For any history of GenerateEvent calls (successful, failed or throwing) and ResetInjectedEvents calls, 0 <= InjectedEvents <= injection attempts <= EventsToInject, and GenerateEvent refuses with the quota error exactly when the attempts have reached EventsToInject.", "quantifier": "every finite history of generation outcomes and resets", "why_tests_cant": "An invariant over arbitrary histories.", "anchors": ["projects/injection/private/Injector.cxx: Injector::GenerateEvent, InjectedEvents, EventsToInject, ResetInjectedEvents"]}
{"id": "C11", "title": "The injector's truth value predicts whether another event may be generated", "statement": "Whenever the Injector converts to true, calling GenerateEvent does not fail with the quota error (so `while(injector) injector.GenerateEvent()` is safe).", "quantifier": "every reachable counter state", "why_tests_cant": "Needs all histories of failures and resets.", "anchors": ["projects/injection/private/Injector.cxx: Injector::operator bool, Injector::GenerateEvent"]}
{"id": "C12", "title": "Interaction channel selection realises the rates exactly", "statement": "For every non-empty list of channel rates with positive total and every uniform variate r in (0,1], the channel chosen by SampleCrossSection is one whose rate is positive, and the set of r selecting channel k is exactly an interval of length rate_k / sum(rates); cross sections and decays are chosen in proportion to their summed rates.", "quantifier": "every list of non-negative rates and every r", "why_tests_cant": "Exact probability statements about all r and all rate tables.", "anchors": ["projects/injection/private/Injector.cxx: Injector::SampleCrossSection"]}
{"id": "C13", "title": "Generated events are faithful trees of interactions", "statement": "Every non-root datum of the tree returned by GenerateEvent was produced from exactly one secondary slot of its parent, of a type for which a secondary process is registered and for which the stopping condition returned false; no slot produces two data; every such eligible slot of every datum produces one.", "quantifier": "every outcome of the random choices, every stopping condition, every registered process set", "why_tests_cant": "Branching process of unbounded size.", "anchors": ["projects/injection/private/Injector.cxx: Injector::GenerateEvent, SampleSecondaryProcess"]}
{"id": "C14", "title": "Process registries keep one process per particle type", "statement": "After any sequence of AddSecondaryProcess / SetSecondaryProcesses calls, each secondary type maps to the first registered process of that type, and the lists of processes and of position distributions correspond to it.", "quantifier": "every call sequence", "why_tests_cant": "History property over arbitrary sequences.", "anchors": ["projects/injection/private/Injector.cxx: AddSecondaryProcess, SetSecondaryProcesses, SetPrimaryProcess"]}
{"id": "C15", "title": "Event weight of several injectors is the balance-heuristic weight", "statement": "Weighter::EventWeight returns 1 / sum_i (N_i * g_i / p_i), where N_i, g_i and p_i are injector i's number of events, generation density and physical density; it does not depend on the order of the injectors, and duplicating an injector with half the events leaves it unchanged.", "quantifier": "every number of injectors and every positive density", "why_tests_cant": "An algebraic law over lists of arbitrary length and all reals.", "anchors": ["projects/injection/private/Weighter.cxx: Weighter::EventWeight"]}
{"id": "C16", "title": "Cancelling shared distributions does not change any weight", "statement": "Removing distributions that appear in both the physical and the injection process (as the process weighters do on construction) leaves the ratio physical probability / generation probability, and hence EventWeight, unchanged whenever the cancelled factors are non-zero.", "quantifier": "every pair of distribution lists and all density values", "why_tests_cant": "Arbitrary lists with arbitrary overlaps.", "anchors": ["projects/injection/public/SIREN/injection/Weighter.tcc: ProcessWeighter::Initialize, PhysicalProbability, GenerationProbability, EventWeight"]}
{"id": "C17", "title": "Interaction channel probabilities agree between generator and weighter", "statement": "CrossSectionProbability of a record is the fraction of the total rate (densities times cross sections plus inverse decay lengths) carried by the record's signature; it lies in [0,1] for final-state probabilities in [0,1], sums to one over the distinct signatures, and equals the probability with which the injector's channel selection picks that signature.", "quantifier": "every collection of cross sections and decays, every record, every rate", "why_tests_cant": "Relates two separately coded loops over arbitrary collections.", "anchors": ["projects/injection/private/WeightingUtils.cxx: CrossSectionProbability", "projects/injection/private/Injector.cxx: SampleCrossSection"]}
{"id": "C18", "title": "Sampled vertex depth has the density the weighter assumes", "statement": "For total interaction depth T > 0, the map from the uniform variate y to the traversed depth t used by the vertex distributions is a bijection of [0,1] onto [0,T], strictly increasing, and its inverse is the CDF whose derivative is the generation density exp(-t)/(1-exp(-T)) used when weighting.", "quantifier": "every y in [0,1] and every T > 0", "why_tests_cant": "A statement about the whole continuum of y and T, including derivatives.", "anchors": ["projects/distributions/private/primary/vertex/*.cxx: SamplePosition, GenerationProbability", "projects/injection/public/SIREN/injection/Weighter.tcc: NormalizedPositionProbability"]}
{"id": "C19", "title": "Interaction and survival probabilities are complementary and bounded", "statement": "one_minus_exp_of_negative and log_one_minus_exp_of_negative approximate 1-exp(-x) and ln(1-exp(-x)) with a relative error below a stated bound for every x > 0, in every branch; the resulting probabilities stay within [0,1] up to that bound.", "quantifier": "every real x > 0", "why_tests_cant": "Uniform error bounds over a continuum and at branch boundaries.", "anchors": ["projects/injection/public/SIREN/injection/Weighter.tcc: one_minus_exp_of_negative, log_one_minus_exp_of_negative"]}
{"id": "C20", "title": "InteractionCollection indexes its cross sections by target correctly", "statement": "For every list of cross sections, TargetTypes() is exactly the union of their possible targets, and GetCrossSectionsForTarget(t) lists exactly the cross sections that declare t, in order, once per declaration; unknown targets give the empty list.", "quantifier": "every list of cross sections with arbitrary target lists", "why_tests_cant": "Arbitrary-length lists with arbitrary overlaps and duplicates.", "anchors": ["projects/interactions/private/InteractionCollection.cxx: InitializeTargetTypes, GetCrossSectionsForTarget, TotalCrossSectionByTarget"]}
{"id": "C21", "title": "Decay lengths combine harmonically", "statement": "TotalDecayLengthAllFinalStates of a collection satisfies 1/L = sum 1/L_i, is no larger than any single decay length, is independent of the order of the decays and is infinite exactly when no decay contributes.", "quantifier": "every list of positive decay lengths", "why_tests_cant": "Lists of arbitrary length and all reals.", "anchors": ["projects/interactions/private/InteractionCollection.cxx: TotalDecayLengthAllFinalStates, TotalDecayWidthAllFinalStates"]}
{"id": "C22", "title": "Processes hold no duplicate distributions and mirror injection distributions as physical ones", "statement": "After any sequence of Add/Set calls on Primary- or SecondaryInjectionProcess, the physical distributions equal the injection distributions as lists, and no two of them compare equal; a rejected call changes nothing.", "quantifier": "every sequence of Add/Set calls with any distributions", "why_tests_cant": "History invariant.", "anchors": ["projects/injection/private/Process.cxx: AddPrimaryInjectionDistribution, SetPrimaryInjectionDistributions, AddSecondaryInjectionDistribution, SetSecondaryInjectionDistributions, AddPhysicalDistribution, SetPhysicalDistributions"]}
{"id": "C23", "title": "The containing sector is the highest-level sector that contains the point", "statement": "GetContainingSector(point) returns the sector with the greatest level among those whose geometry contains the point, for every arrangement of overlapping sectors, i.e. the acceleration structure gives the same answer as a linear scan.", "quantifier": "every list of sectors and every point", "why_tests_cant": "Arbitrarily many overlapping sectors and all points; the BVH shape depends on the input.", "anchors": ["projects/detector/private/DetectorModel.cxx: GetContainingSectorDirect, FindContainingSectorBVH, RebuildBVH, BuildBVHRecursive"]}
{"id": "C24", "title": "Ray queries through the BVH lose no intersections", "statement": "GetIntersections(p, d) returns exactly the multiset of intersections that intersecting every sector's geometry separately would return, for every sector list, BVH shape and ray.", "quantifier": "every sector list, every ray", "why_tests_cant": "Culling soundness must hold for every ray and box arrangement.", "anchors": ["projects/detector/private/DetectorModel.cxx: GetIntersections, BuildBVHRecursive, AppendSectorIntersections", "projects/geometry/public/SIREN/geometry/AABB.h: RayAABBIntersect"]}
{"id": "C25", "title": "Intersection sorting is a well-defined order", "statement": "The comparator used by SortIntersections is a strict weak order, the sorted list is a permutation ordered by distance, exits precede entries at equal distance, and the result does not depend on the order in which the intersections were found (up to equivalent entries).", "quantifier": "every list of intersections", "why_tests_cant": "Order laws over all triples; sorting with a broken comparator is undefined behaviour.", "anchors": ["projects/detector/private/DetectorModel.cxx: SortIntersections"]}
{"id": "C26", "title": "Segment traversal tiles the ray and assigns each piece to its highest-level sector", "statement": "For every ray whose sorted intersections come from sectors with distinct levels, enclosed by a sector that contains the whole range (the default universe), SectorLoop calls back on consecutive segments that start at the first intersection, end at the last, join without gap or overlap, and each segment is attributed to the highest-level sector containing its interior.", "quantifier": "every nesting/overlap pattern of any number of sectors", "why_tests_cant": "Unbounded interval arrangements, coincident boundaries included.", "anchors": ["projects/detector/private/DetectorModel.cxx: SectorLoop"]}
{"id": "C27", "title": "Traversal never rejects a legitimate ray", "statement": "SectorLoop does not throw for any ray through any set of valid sectors, including rays that only touch a volume.", "quantifier": "every ray and every detector built from supported volumes", "why_tests_cant": "Grazing configurations have measure zero and are missed by random testing.", "anchors": ["projects/detector/private/DetectorModel.cxx: SectorLoop, SortIntersections", "projects/geometry/private/Box.cxx: Box::ComputeIntersections"]}
{"id": "C28", "title": "Column depth is additive, symmetric and non-negative", "statement": "GetColumnDepthInCGS(p0,p1) = GetColumnDepthInCGS(p0,m) + GetColumnDepthInCGS(m,p1) for m on the segment, equals the depth of the reversed segment, is monotone in the path length and is zero only for paths of zero length or zero density.", "quantifier": "all segments, all density profiles, all split points", "why_tests_cant": "Continuum of split points and density profiles.", "anchors": ["projects/detector/private/DetectorModel.cxx: GetColumnDepthInCGS"]}
{"id": "C29", "title": "Distance for a column depth inverts column depth", "statement": "DistanceForColumnDepthFromPoint(p,d,X) returns the distance L with GetColumnDepthInCGS(p, p+L*d) = X whenever such an L exists along the ray, and a negative requested depth gives minus the distance along the reversed direction.", "quantifier": "all rays, all requested depths, all sector arrangements", "why_tests_cant": "Inverse over a continuum through arbitrarily many sectors.", "anchors": ["projects/detector/private/DetectorModel.cxx: DistanceForColumnDepthFromPoint"]}
{"id": "C30", "title": "Distance for an interaction depth inverts interaction depth", "statement": "DistanceForInteractionDepthFromPoint(p,d,t,...) returns the distance L with GetInteractionDepthInCGS(p, p+L*d, ...) = t whenever such an L exists, for every set of targets, cross sections and total decay length.", "quantifier": "all rays, all depths, all target sets, all decay lengths", "why_tests_cant": "Inverse over a continuum through arbitrarily many sectors.", "anchors": ["projects/detector/private/DetectorModel.cxx: DistanceForInteractionDepthFromPoint, GetInteractionDepthInCGS"]}
{"id": "C31", "title": "ToPoint distances equal FromPoint distances along the reversed direction in both coordinate systems", "statement": "DistanceForColumnDepthToPoint and DistanceForInteractionDepthToPoint, called with detector coordinates, agree with the same call in geometry coordinates and with the FromPoint call on the negated direction.", "quantifier": "all points, directions and depths", "why_tests_cant": "A relation between overloads for all inputs.", "anchors": ["projects/detector/private/DetectorModel.cxx: DistanceForColumnDepthToPoint, DistanceForInteractionDepthToPoint"]}
{"id": "C32", "title": "Detector and geometry coordinates are mutually inverse rigid motions", "statement": "ToDet(ToGeo(x)) = x and ToGeo(ToDet(x)) = x for positions and directions, and both maps preserve distances and angles, for every detector origin and rotation quaternion that is non-zero.", "quantifier": "all points, origins and non-zero quaternions", "why_tests_cant": "Identity over all reals.", "anchors": ["projects/detector/private/DetectorModel.cxx: ToDet, ToGeo", "projects/math/private/Quaternion.cxx: rotate"]}
{"id": "C33", "title": "Saving a detector model preserves its coordinate system", "statement": "A DetectorModel that is serialised and loaded maps every position and direction between detector and geometry coordinates exactly as before, and models that compare equal map them identically.", "quantifier": "every detector model state", "why_tests_cant": "Quantifies over all states; a field missing from both save and == is invisible to a round-trip test using ==.", "anchors": ["projects/detector/public/SIREN/detector/DetectorModel.h: serialize", "projects/detector/private/DetectorModel.cxx: operator=="]}
{"id": "C34", "title": "Sector registration keeps levels unique and is failure atomic", "statement": "After any sequence of AddSector, SetSectors and ClearSectors calls, no two sectors share a level, lookups by level return that sector, and a call that throws leaves the set of sectors and later query results unchanged.", "quantifier": "every call sequence including rejected calls", "why_tests_cant": "History property with failure interleavings.", "anchors": ["projects/detector/private/DetectorModel.cxx: AddSector, SetSectors, ClearSectors, GetSector"]}
{"id": "C35", "title": "Outer bounds enclose all matter", "statement": "GetOuterBounds on a sorted intersection list returns the first and last intersections that belong to a real (non-universe) sector, and every point of the ray outside them lies in no real sector.", "quantifier": "every intersection list", "why_tests_cant": "Unbounded arrangements.", "anchors": ["projects/detector/private/DetectorModel.cxx: GetOuterBounds"]}
{"id": "C36", "title": "Path end points, direction and distance stay consistent", "statement": "After any sequence of SetPoints/SetPointsWithRay/Flip/Extend/Shrink/Clip operations, last point = first point + distance * direction, the distance is non-negative and cached depths equal the depths of the current segment.", "quantifier": "every operation sequence and all arguments", "why_tests_cant": "State-machine invariant over arbitrary histories.", "anchors": ["projects/detector/private/Path.cxx: Path"]}
{"id": "C37", "title": "Path extension and shrinking are mutually inverse and clamp at zero", "statement": "ExtendFromEndByDistance followed by ShrinkFromEndByDistance of the same amount restores the path (likewise from the start), shrinking by more than the length gives a zero-length path, and Flip is an involution exchanging start and end operations.", "quantifier": "all paths and distances", "why_tests_cant": "Continuum of distances and all composite orders.", "anchors": ["projects/detector/private/Path.cxx: ExtendFromEndByDistance, ShrinkFromEndByDistance, Flip"]}
{"id": "C38", "title": "Material ids and names are in bijection and dense", "statement": "After any sequence of AddMaterial calls, ids are exactly 0..n-1 in order of first definition, GetMaterialName and GetMaterialId are mutually inverse on known materials, and HasMaterial holds exactly of them; redefining a material keeps its id.", "quantifier": "every call sequence", "why_tests_cant": "History property.", "anchors": ["projects/detector/private/MaterialModel.cxx: AddMaterial, GetMaterialName, GetMaterialId, HasMaterial"]}
{"id": "C39", "title": "A material's components describe its latest definition", "statement": "After AddMaterial(name, fractions), GetMaterialTargets / GetTargetMassFraction for that material reflect exactly that definition, whatever was defined before under the same name.", "quantifier": "every sequence of definitions", "why_tests_cant": "History property: depends on earlier definitions.", "anchors": ["projects/detector/private/MaterialModel.cxx: AddMaterial, GetTargetMassFraction, GetTargetParticleFraction"]}
{"id": "C40", "title": "Derived nucleon and electron content balances the nuclei", "statement": "For a material of valid nuclear components with mass fractions summing to one, the number of protons (and of electrons) per gram equals sum_i f_i Z_i / M_i, neutrons sum_i f_i (A_i-Z_i)/M_i, nucleons = protons + neutrons.", "quantifier": "every composition", "why_tests_cant": "All compositions of arbitrary length.", "anchors": ["projects/detector/private/MaterialModel.cxx: AddMaterial, GetNucleonContent"]}
{"id": "C41", "title": "Radiation-length fractions are computed over the requested targets", "statement": "GetTargetRadiationFraction(material, target) is the fraction contributed by that target, and is zero for a target that is absent.", "quantifier": "every material and target", "why_tests_cant": "All compositions.", "anchors": ["projects/detector/private/MaterialModel.cxx: GetTargetRadiationFraction"]}
{"id": "C42", "title": "Box intersections bracket exactly the part of the line inside the box", "statement": "For every box and every line not parallel-degenerate, Box::ComputeIntersections returns either no intersection, when the line misses the box, or an entering and an exiting intersection between which (and nowhere else) the line's points lie inside the box.", "quantifier": "all boxes, all lines", "why_tests_cant": "Continuum; axis-parallel and corner cases have measure zero.", "anchors": ["projects/geometry/private/Box.cxx: Box::ComputeIntersections"]}
{"id": "C43", "title": "Sphere intersections bracket exactly the part of the line inside the spherical shell", "statement": "For every sphere or shell and every line, the intersections returned delimit exactly the sub-intervals of the line inside the shell, alternating entering and exiting.", "quantifier": "all spheres, all lines", "why_tests_cant": "Continuum including tangent lines and inner radius.", "anchors": ["projects/geometry/private/Sphere.cxx: Sphere::ComputeIntersections"]}
{"id": "C44", "title": "Geometry::IsInside decides membership", "statement": "For every shape whose intersection routine brackets its interior, IsInside(p) holds exactly for points of the shape (away from the boundary tolerance).", "quantifier": "all shapes with correct intersections, all points", "why_tests_cant": "Continuum of points.", "anchors": ["projects/geometry/private/Geometry.cxx: Geometry::IsInside"]}
{"id": "C45", "title": "Boolean geometry intersections equal the set operation", "statement": "For union, intersection and subtraction of two shapes, the intersections returned along a line delimit exactly the sub-intervals where the set operation of the operands' intervals holds, for every arrangement and nesting of operand boundaries.", "quantifier": "all interval arrangements of the operands", "why_tests_cant": "Unbounded arrangements, including coincident boundaries.", "anchors": ["projects/geometry/private/BooleanGeometry.cxx: BooleanGeometry::ComputeIntersections, IsInsideResult"]}
{"id": "C46", "title": "Bounding boxes are sound", "statement": "RayAABBIntersect never rejects a ray that meets the box; merging boxes yields a box containing both; the world bounding box of a placed shape contains every point of the shape.", "quantifier": "all boxes, rays and placements", "why_tests_cant": "Soundness of culling must hold for all rays; one false negative silently loses material.", "anchors": ["projects/geometry/public/SIREN/geometry/AABB.h: AABB, RayAABBIntersect", "projects/geometry/private/Geometry.cxx: RecomputeWorldAABB"]}
{"id": "C47", "title": "Placements are invertible rigid motions", "statement": "LocalToGlobalPosition and GlobalToLocalPosition are mutually inverse, as are the direction maps, and all preserve lengths, for every placement.", "quantifier": "all placements and points", "why_tests_cant": "Identity over all reals and both the identity fast path and the general path.", "anchors": ["projects/geometry/private/Placement.cxx: LocalToGlobalPosition, GlobalToLocalPosition, LocalToGlobalDirection, GlobalToLocalDirection"]}
{"id": "C48", "title": "Quaternions form a group acting on vectors", "statement": "Quaternion multiplication is associative with unit and inverse, rotate(v) equals q v q^-1, rotate by a product is the composition of rotations, rotate with the inverse flag undoes rotate, and lengths are preserved for any non-zero quaternion.", "quantifier": "all non-zero quaternions and vectors", "why_tests_cant": "Polynomial identities over all reals.", "anchors": ["projects/math/private/Quaternion.cxx: operator*, rotate, invert, conjugate, GetMatrix"]}
{"id": "C49", "title": "Quaternion compound operators agree with their binary forms", "statement": "q *= r gives q * r and q + s gives the same value as q += s.", "quantifier": "all quaternions and scalars", "why_tests_cant": "Commuting test values (e.g. rotations about one axis) hide the difference.", "anchors": ["projects/math/private/Quaternion.cxx: operator*=, operator+, operator+="]}
{"id": "C50", "title": "rotation_between rotates the first direction onto the second", "statement": "For all non-zero vectors v0 and v1, the quaternion rotation_between(v0, v1) is a unit quaternion rotating v0/|v0| to v1/|v1|.", "quantifier": "all pairs of non-zero vectors including antiparallel ones", "why_tests_cant": "The failing set has measure zero.", "anchors": ["projects/math/private/Quaternion.cxx: rotation_between"]}
{"id": "C51", "title": "Vector equality is geometric equality", "statement": "Two Vector3D values compare equal exactly when their Cartesian coordinates are equal.", "quantifier": "all vectors obtainable through the API", "why_tests_cant": "Depends on cached state left behind by earlier calls.", "anchors": ["projects/math/private/Vector3D.cxx: operator==, normalize"]}
{"id": "C52", "title": "Polynomial algebra", "statement": "For every polynomial p and every shift s, the shifted polynomial evaluates to p(x+s) at every x; GetDerivative is the derivative, GetAntiderivative(c) is the antiderivative with value c at 0.", "quantifier": "all coefficient lists, all shifts, all evaluation points", "why_tests_cant": "All degrees and all reals.", "anchors": ["projects/math/private/Polynomial.cxx: Polynom::evaluate, Polynom::shift, Polynom::GetDerivative, Polynom::GetAntiderivative"]}
{"id": "C53", "title": "Bracketed Newton-Raphson stays in its bracket", "statement": "When f has a sign change on [lo,hi], NewtonRaphson never evaluates outside [lo,hi] and the value returned lies in [lo,hi]; otherwise it throws; it always terminates.", "quantifier": "all functions, derivatives and brackets", "why_tests_cant": "All functions f, f' including inconsistent derivatives.", "anchors": ["projects/math/private/Polynomial.cxx: NewtonRaphson"]}
{"id": "C54", "title": "Density integrals and inverse integrals agree with the density", "statement": "Integral(x, d, L) of every density distribution is the integral of Evaluate along the ray from x over length L, and InverseIntegral(x, d, I, max) returns the length with that integral when one exists below max and a negative value otherwise, with and without a constant added to the density.", "quantifier": "all rays, lengths, densities and added constants", "why_tests_cant": "Continuum of rays and constants.", "anchors": ["projects/detector/public/SIREN/detector/CartesianAxisDensityDistribution.h", "projects/detector/public/SIREN/detector/ConstantDensityDistribution.h"]}
{"id": "C55", "title": "Table interpolation reproduces its nodes and stays between neighbours", "statement": "For every strictly increasing table with at least two points, evaluating the 1-D interpolator at a tabulated abscissa returns the tabulated value, and between two neighbours it returns a value between theirs.", "quantifier": "all tables, all abscissae in range", "why_tests_cant": "All tables and all abscissae; the first node is a single point.", "anchors": ["projects/utilities/public/SIREN/utilities/Interpolator.h: IndexFinderRegular, IndexFinderIrregular, Interpolator1D::operator()"]}
{"id": "C56", "title": "Trapezoid integration over a sub-range is exact and additive", "statement": "trapezoidIntegrate(x, y, a, b) is the integral of the piecewise-linear interpolant over [a,b], and integrals over adjacent sub-ranges add up.", "quantifier": "all tables and sub-ranges", "why_tests_cant": "Continuum of sub-range limits crossing arbitrarily many nodes.", "anchors": ["projects/utilities/public/SIREN/utilities/Integration.h: trapezoidIntegrate"]}
{"id": "C57", "title": "Random draws respect the requested range", "statement": "SIREN_random::Uniform(min,max) and PowerLaw(min,max,n) always return a value between min and max.", "quantifier": "all ranges, exponents and generator outputs", "why_tests_cant": "All generator outputs and parameters.", "anchors": ["projects/utilities/private/Random.cxx: Uniform, PowerLaw"]}
{"id": "C58", "title": "Power-law energy sampling matches its density", "statement": "PowerLaw::SampleEnergy maps the unit interval monotonically onto [Emin,Emax] and its inverse is the CDF of the density used by GenerationProbability; that density is zero outside [Emin,Emax].", "quantifier": "all exponents (including 1), all 0 < Emin < Emax, all variates", "why_tests_cant": "Derivative/inverse statement over a continuum.", "anchors": ["projects/distributions/private/primary/energy/PowerLaw.cxx: SampleEnergy, pdf, GenerationProbability"]}
{"id": "C59", "title": "Decay-range sampling matches its density", "statement": "For every decay length L and maximum distance D, the sampled distance lies in [0,D] and has exactly the density exp(-d/L)/(L(1-exp(-D/L))) used by GenerationProbability.", "quantifier": "all L, D > 0 and all variates", "why_tests_cant": "Continuum.", "anchors": ["projects/distributions/private/primary/vertex/DecayRangePositionDistribution.cxx: SamplePosition, GenerationProbability"]}
{"id": "C60", "title": "Distribution ordering is consistent with equality", "statement": "For every class of distribution, operator< is a strict weak order whose equivalence is operator==, so std::set/std::map de-duplication keeps distinct distributions.", "quantifier": "all pairs of distributions", "why_tests_cant": "Order laws over all parameter values.", "anchors": ["projects/distributions/private/**: equal, less"]}
{"id": "C61", "title": "Cone directions lie in the cone around the requested axis", "statement": "For every non-zero axis and opening angle, directions sampled from Cone lie within the opening angle of the axis, and GenerationProbability is 1/(2 pi (1-cos a)) inside and zero outside.", "quantifier": "all axes, angles and variates", "why_tests_cant": "Axis special cases have measure zero.", "anchors": ["projects/distributions/private/primary/direction/Cone.cxx: Cone, SampleDirection, GenerationProbability"]}
{"id": "C62", "title": "GDML expressions evaluate by the usual arithmetic rules", "statement": "For every expression built from numbers, variables, + - * / ^, unary minus, parentheses and one- or two-argument functions, EvalExpression returns the value given by ordinary precedence and associativity (or reports the error of the sub-expression that is undefined).", "quantifier": "all expression trees of any size and any spacing of parentheses", "why_tests_cant": "Unbounded grammar.", "anchors": ["projects/detector/private/gdml/GDMLExpression.cxx: Tokenize, EvalExpression"]}
{"id": "C63", "title": "GDML expression evaluation terminates on every string and rejects malformed ones", "statement": "EvalExpression returns or throws for every input string, and throws on every string that is not a well-formed expression.", "quantifier": "all strings", "why_tests_cant": "All strings, including adversarial ones.", "anchors": ["projects/detector/private/gdml/GDMLExpression.cxx: Tokenize, EvalExpression"]}
{"id": "C64", "title": "GDML loop expansion substitutes the loop variable and terminates", "statement": "Substituting a loop variable replaces exactly its whole-identifier occurrences, and expanding loops terminates on every document.", "quantifier": "all strings and variable names", "why_tests_cant": "All strings.", "anchors": ["projects/detector/private/gdml/GDMLPreprocess.cxx: SubstLoopVar, ExpandLoops"]}
{"id": "C65", "title": "GDML unit tables are complete and consistent", "statement": "Every unit name accepted as a length (angle) has the conversion factor that the unit's definition prescribes relative to metres (radians), and a unit accepted for classification is also accepted for conversion.", "quantifier": "every unit string", "why_tests_cant": "All strings, not only the listed units.", "anchors": ["projects/detector/private/gdml/GDMLUnits.cxx: LengthScale, AngleScale, TypeFromUnit, QuantityUnitScale"]}
{"id": "C66", "title": "HepMC3 export numbers events uniquely", "statement": "When trees without explicit event numbers are saved together with trees that have them, no assigned number equals another assigned number or any explicit one.", "quantifier": "all lists of headers", "why_tests_cant": "Arbitrary mixtures of explicit numbers.", "anchors": ["projects/io/private/HepMC3Writer.cxx: SaveInteractionTreesAsHepMC3"]}
{"id": "C67", "title": "HepMC3 process ids identify interaction signatures", "statement": "In one saved file, two interactions get the same process id exactly when they have the same signature, and the ids do not depend on the order of the trees.", "quantifier": "all tree lists and all pre-filled process id maps", "why_tests_cant": "Arbitrary lists and user-provided maps.", "anchors": ["projects/io/private/HepMC3Writer.cxx: ProcessKey, SaveInteractionTreesAsHepMC3"]}
{"id": "C68", "title": "HepMC3 import rebuilds the interaction topology", "statement": "Reading any event graph terminates, places every interaction vertex in the tree exactly once, parents before daughters, and attaches a vertex to the vertex that produced its incoming primary; exporting a tree whose primaries carry the ids of their parents' secondaries and reading it back gives the same topology.", "quantifier": "all event graphs, all trees", "why_tests_cant": "Unbounded graphs, cycles included.", "anchors": ["projects/io/private/HepMC3Reader.cxx: GenEventToTree", "projects/io/private/HepMC3Writer.cxx: TreeToGenEvent"]}
{"id": "C69", "title": "Hex transport of pickled objects is lossless", "statement": "hex_string_to_bytes(bytes_to_hex_string(b)) = b for every byte string b, and the hex string has exactly two hexadecimal digits per byte.", "quantifier": "all byte strings", "why_tests_cant": "All byte strings of any length (the sign of char matters).", "anchors": ["projects/serialization/public/SIREN/serialization/ByteString.h: bytes_to_hex_string, hex_string_to_bytes"]}
{"id": "C70", "title": "Nuclear codes decode to their nucleon content", "statement": "GetNucleonContent turns every ten-digit nuclear code 10LZZZAAAI into L strange baryons, Z protons, A nucleons and A-Z-L neutrons; every code that is not a nuclear code is rejected with an exception (refuted: the 10 prefix and the sign are not checked).", "quantifier": "all L, Z, A, I; all integer codes", "why_tests_cant": "All codes of the ten-digit space, and all malformed ones.", "anchors": ["projects/detector/private/MaterialModel.cxx: GetNucleonContent"]}
{"id": "C71", "title": "Reading a material file terminates and defines its materials", "statement": "AddModelFile on a file of material blocks with comments and blank lines anywhere ends and defines exactly the materials of the file, in order; on any other file it ends with an exception (refuted: a file cut short inside a block is read forever).", "quantifier": "all files", "why_tests_cant": "All files; non-termination cannot be observed by a test.", "anchors": ["projects/detector/private/MaterialModel.cxx: AddModelFile"]}
{"id": "C72", "title": "HepMC3 weight sums count every saved event once", "statement": "After saving a run, the weight sum used for the flux-averaged cross section is the initial value plus the sum of the central weights of the saved (non-empty) trees, the sums and counters by primary type are those over the trees with that primary, and saving a run in parts accumulates to the same sums; every event is written with exactly one weight per weight name.", "quantifier": "all lists of trees (null and empty ones included), all weights", "why_tests_cant": "Arbitrary runs with skipped trees and missing weights.", "anchors": ["projects/io/private/HepMC3Writer.cxx: SaveInteractionTreesAsHepMC3, TreeToGenEvent"]}
{"id": "C73", "title": "Euler angle conversions", "statement": "QFromXYZs(a,b,g) is the unit quaternion rotating by a about x, then b about y, then g about z (fixed axes), and QFromZXZr(a,b,g) the unit quaternion rotating by g about z, then b about x, then a about z.", "quantifier": "all angles and all vectors", "why_tests_cant": "Every triple of real angles is covered; tests check a few special angles, where sign or order errors can cancel.", "anchors": ["projects/math/public/SIREN/math/EulerQuaternionConversions.h: QFromZXZr, QFromXYZs"]}
{"id": "C74", "title": "Isotropic directions and distributions of a single value", "statement": "IsotropicDirection draws unit vectors with uniform vertical component, reaches every direction and has the density 1/(4 pi) of total one; the fixed energy, direction, mass and helicity distributions give probability one to what they draw (refuted: a fixed direction that is not a unit vector) and zero to what clearly differs.", "quantifier": "all variates, all directions, all fixed values", "why_tests_cant": "Coverage of the sphere is a statement about a continuum.", "anchors": ["projects/distributions/private/primary/direction/IsotropicDirection.cxx", "projects/distributions/private/primary/direction/FixedDirection.cxx", "projects/distributions/private/primary/energy/Monoenergetic.cxx", "projects/distributions/private/primary/mass/PrimaryMass.cxx", "projects/distributions/private/primary/helicity/PrimaryNeutrinoHelicityDistribution.cxx"]}
{"id": "C75", "title": "Neutrinos from muon decay at rest follow their spectrum", "statement": "PiDARNuEDistribution::cdf is the integral of pdf from zero and increases from 0 to 1 on [0, m/2]; the bisection in inv_cdf ends within sixteen rounds and returns an energy in that range within 1e-6 GeV of the true inverse; GenerationProbability is pdf inside the range and zero outside.", "quantifier": "every variate in [0,1] and every energy", "why_tests_cant": "A bound for every variate, and termination of the search.", "anchors": ["projects/distributions/private/primary/energy/PiDARNuEDistribution.cxx"]}
{"id": "C76", "title": "Moyal plus exponential energies", "statement": "The Metropolis loop of ModifiedMoyalPlusExponentialEnergyDistribution returns an energy in [energyMin, energyMax] of positive density whatever the variates, and pdf_integral is the integral of unnormed_pdf over the range.", "quantifier": "all parameters, all sequences of variates", "why_tests_cant": "All sequences of draws; an exact integral.", "anchors": ["projects/distributions/private/primary/energy/ModifiedMoyalPlusExponentialEnergyDistribution.cxx"]}
{"id": "C77", "title": "The physical interaction and position factors combine to the unnormalised density", "statement": "The product of the interaction probability between the bounds and the normalised position density equals interaction density times exp(-depth traversed), up to the approximations of the exponentials (relative error 2e-6 below depth 1e-6, 2e-9 above, none between 1e-6 and 3), so that the injection bounds drop out of the physical density.", "quantifier": "every interaction density, total depth and traversed depth", "why_tests_cant": "Identity over the reals across the switches between series.", "anchors": ["projects/injection/public/SIREN/injection/Weighter.tcc: InteractionProbability, NormalizedPositionProbability", "projects/injection/private/Weighter.cxx: comment of EventWeight"]}
{"id": "C78", "title": "Textual loop substitution preserves the meaning of expressions", "statement": "Replacing a loop variable by the text of its value in an expression gives a text that evaluates to the value the expression has with the variable bound to that number.", "quantifier": "all expressions, variables and values", "why_tests_cant": "All expressions and all values.", "anchors": ["projects/detector/private/gdml/GDMLPreprocess.cxx: SubstLoopVar", "projects/detector/private/gdml/GDMLExpression.cxx: EvalExpression"]}
{"id": "C79", "title": "Geometry ordering is consistent with equality", "statement": "For every class of geometry, including nested boolean geometries with null operands, operator< is a strict weak order whose equivalence is operator==, and equal geometries agree in every member.", "quantifier": "all pairs and triples of geometries of any nesting depth", "why_tests_cant": "Order laws over all parameter values, classes and nesting depths.", "anchors": ["projects/geometry/private/Geometry.cxx: operator==, operator<", "projects/geometry/private/BooleanGeometry.cxx: equal, less", "projects/geometry/private/GeometryMacros.h"]}
{"id": "C80", "title": "The interaction time of a primary is its start time plus the flight time", "statement": "GetInteractionTime returns a set time unchanged; otherwise it returns the initial time plus the distance between initial position and vertex divided by the particle's speed (momentum over energy, never above light), is never before the initial time, and throws exactly when a position, the energy or the mass cannot be derived. Finalize copies exactly the getters' answers or nothing, and FinalizeAvailable copies exactly those that exist.", "quantifier": "every sequence of setter and getter calls, all real values", "why_tests_cant": "Call sequences times real inputs; the time depends on four other getters.", "anchors": ["projects/dataclasses/private/InteractionRecord.cxx: FlightTime, UpdateInteractionTime, Finalize, FinalizeAvailable"]}
{"id": "C81", "title": "A particle copied into a primary record comes out unchanged", "statement": "After SetParticle with matching id and type, GetParticle returns the same mass, four-momentum, position, length and helicity whatever was set or read before; a particle with a different id or type is refused and leaves the record as it was.", "quantifier": "every preceding call sequence, every particle", "why_tests_cant": "Call histories are unbounded.", "anchors": ["projects/dataclasses/private/InteractionRecord.cxx: SetParticle, GetParticle"]}
{"id": "C82", "title": "Kinematics of a secondary particle record", "statement": "After any sequence of setter, SetParticle and getter calls on a SecondaryParticleRecord, set values are returned as last set, derived mass, energy, kinetic energy, momentum and direction are those of the relativistic particle that the set values describe, reading order does not matter, and a getter throws exactly when too little is set.", "quantifier": "for all interaction records, slots, call sequences and physical particles", "why_tests_cant": "the setters and mutable caches can be interleaved in unboundedly many ways", "anchors": ["projects/dataclasses/private/InteractionRecord.cxx:704-939", "projects/dataclasses/public/SIREN/dataclasses/InteractionRecord.h:162-236"]}
{"id": "C83", "title": "Finishing the final state of an interaction", "statement": "CrossSectionDistributionRecord::Finalize leaves one entry per secondary of the signature in each of the five lists, entry i coming from the calls made on secondary i; ids already present are kept; the default time of a secondary is the interaction time, including one set by SetInteractionTime before or after the calls on the secondaries; nothing about the primary or the vertex changes; it succeeds exactly if enough is set on every secondary.", "quantifier": "for all records, numbers of secondaries and call sequences", "why_tests_cant": "number of secondaries and order of calls are unbounded", "anchors": ["projects/dataclasses/private/InteractionRecord.cxx:943-1098", "projects/dataclasses/public/SIREN/dataclasses/InteractionRecord.h:238-304"]}
{"id": "C84", "title": "Boosts of the kinematics library are Lorentz transformations", "statement": "For a particle of non-negative mass with the energy that the mass and momentum imply, P4::boost and Boost*P4 give the four-momentum that the Lorentz transformation of that direction and rapidity gives, energy included; mass and the Minkowski product of any two particles are kept, restBoost brings its particle to rest with energy equal to its mass, and labBoost undoes restBoost for every particle.", "quantifier": "for all four-momenta and boosts", "why_tests_cant": "the domain is continuous and the energy is recomputed from the mass", "anchors": ["vendor/rk/rk/rk.cc:8-21", "vendor/rk/rk/rk_Boost.icc:77-81, 109-122", "vendor/rk/rk/rk_P4.icc:27-69"]}
{"id": "C85", "title": "Rotation between two directions", "statement": "rotationBetween(v1, v2) of two unit vectors is a proper rotation and takes v1 to v2.", "quantifier": "for all pairs of unit vectors", "why_tests_cant": "special cases (parallel, antiparallel) and thresholds have measure zero", "anchors": ["vendor/rk/rk/geom3_Vector3.icc:287-312", "vendor/rk/rk/geom3_Rotation3.icc:50-112"]}
{"id": "C86", "title": "Dipole decays conserve four-momentum", "statement": "Whatever is drawn, the photon and the neutrino of a sampled HNL -> nu gamma decay are massless, have non-negative energy, and their four-momenta add up to that of the HNL.", "quantifier": "for all HNL momenta, masses, helicities and random draws", "why_tests_cant": "continuous kinematics", "anchors": ["projects/interactions/private/HNLDipoleDecay.cxx:135-192"]}
{"id": "C87", "title": "The angle of a dipole decay is drawn from the density used for its weight", "statement": "The cosine drawn for the photon lies in [-1,1] and its cumulative distribution is the integral of the angular density, and FinalStateProbability of the sampled record is that density at the drawn cosine.", "quantifier": "for all HNL momenta, masses, helicities, natures and draws", "why_tests_cant": "a statement about a distribution and a continuous domain", "anchors": ["projects/interactions/private/HNLDipoleDecay.cxx:105-133", "projects/interactions/private/HNLDipoleDecay.cxx:135-200"]}
{"id": "C88", "title": "Decay widths and lengths of dipole decays add up over the channels", "statement": "The widths of the signatures offered for a parent add up to its total width, and the decay length over all final states is the reciprocal of the sum of the reciprocal decay lengths of the signatures; it is momentum over mass times the lifetime.", "quantifier": "for all couplings, masses and momenta", "why_tests_cant": "continuous parameters", "anchors": ["projects/interactions/private/HNLDipoleDecay.cxx:42-103", "projects/interactions/private/Decay.cxx:23-37"]}
{"id": "C89", "title": "The Metropolis-Hastings sampler samples its likelihood", "statement": "The sampler returns one of the proposed points; it returns a point of positive likelihood as soon as one was proposed; and one round leaves the likelihood stationary if the density reported with a proposal is that of the proposals up to a constant.", "quantifier": "for all likelihoods, proposals, draws and numbers of rounds; stationarity on every finite set of points", "why_tests_cant": "the law of a Markov chain cannot be read off finitely many samples", "anchors": ["projects/utilities/public/SIREN/utilities/Sampling.h:24-54"]}
{"id": "C90", "title": "The electron of elastic scattering follows two-body kinematics", "statement": "For every y between 0 and 2E/(2E+m) the electron made by ElasticScattering has the electron mass, energy Ey+m, and a momentum such that what remains of the initial energy and momentum is a massless neutrino of energy E(1-y); beyond that limit there is no electron. The differential cross section computed from a record is the one of the energy and of y.", "quantifier": "for all neutrino momenta whose direction is not almost the x axis, energies, y and azimuths", "why_tests_cant": "continuous kinematics", "anchors": ["projects/interactions/private/ElasticScattering.cxx:41-95", "projects/interactions/private/ElasticScattering.cxx:183-202"]}
{"id": "C91", "title": "The y of elastic scattering is drawn from the density used for its weight", "statement": "The rounds of ElasticScattering's sampler leave the differential cross section stationary, the final state conserves four-momentum and its FinalStateProbability is that of the drawn y.", "quantifier": "for all neutrino momenta and random draws", "why_tests_cant": "a statement about a distribution", "anchors": ["projects/interactions/private/ElasticScattering.cxx:116-216", "projects/interactions/private/ElasticScattering.cxx:271-281"]}
{"id": "C92", "title": "Deep inelastic scattering kinematics are exact", "statement": "kinematicallyAllowed lets pass exactly the points (x, y) with x at most 1 for which a scattering conserving energy and momentum exists, and from an allowed point the code makes such a scattering: lepton of its mass with energy E(1-y), hadrons of mass squared M^2+2EMy(1-x), and x, y, Q2 recomputed from the record are those put in.", "quantifier": "for all energies, masses, x, y and azimuths, massless neutrinos whose direction is not almost the x axis", "why_tests_cant": "a continuum of kinematics, with roots that vanish at the border", "anchors": ["projects/interactions/private/DISFromSpline.cxx:40-53", "projects/interactions/private/DISFromSpline.cxx:318-378", "projects/interactions/private/DISFromSpline.cxx:537-568"]}
{"id": "C93", "title": "The DIS sampler only makes events with the cross section of the table", "statement": "Whatever the generator gives, a sampled event passes all cuts, conserves four-momentum, and its differential cross section is the table's at the sampled point; each round of the chain balances that cross section.", "quantifier": "for all tables, records whose masses match the table and all random numbers", "why_tests_cant": "rejection loops and a chain of random length", "anchors": ["projects/interactions/private/DISFromSpline.cxx:385-592"]}
{"id": "C94", "title": "Two-body decays of a heavy neutral lepton conserve energy and momentum", "statement": "For every signature with one lepton and one other particle, every helicity, momentum and draw, the two secondaries sampled by HNLDecay are on their mass shells and together carry the energy and momentum of the parent, and each stands at its place in the record; three-neutrino decays conserve momentum", "quantifier": "all mass tables, masses with mX+mL <= M, momenta, helicities, draws, meanings of abs", "why_tests_cant": "Tests compare sums for a few masses and seeds; a missing mass term or a wrong boost shows only for unequal masses", "anchors": ["projects/interactions/private/HNLDecay.cxx:906-1009"]}
{"id": "C95", "title": "The angle of a two-body heavy neutral lepton decay follows the density reported for it", "statement": "The cosine drawn in HNLDecay has the distribution (1+alpha c)/2 of the asymmetry of the meson, and FinalStateProbability of the sampled record is that density at the drawn cosine", "quantifier": "all masses, mesons, helicities, draws, momenta clear of the x axis", "why_tests_cant": "Sampler and density are two separate pieces of code; a histogram test of one channel does not see a wrong asymmetry of another", "anchors": ["projects/interactions/private/HNLDecay.cxx:771-849", "projects/interactions/private/HNLDecay.cxx:927-936", "projects/interactions/private/HNLDecay.cxx:1079-1085"]}
{"id": "C96", "title": "Three-body decays conserve energy and momentum", "statement": "For every phase space point the three-body proposal of HNLDecay makes, the conversion to momenta succeeds and the neutrino and the two charged leptons have their masses, share the parent's energy and momentum, and have the proposed pair invariant masses.", "quantifier": "for all masses, parent momenta and generator outputs", "why_tests_cant": "tests sample a few points; the statement is over the whole region and every boost", "anchors": ["projects/interactions/private/HNLDecay.cxx:1207-1245", "projects/interactions/private/HNLDecay.cxx:1268-1295", "projects/interactions/private/HNLDecay.cxx:1053-1069"]}
{"id": "C97", "title": "The three-body proposal covers the allowed region evenly", "statement": "The pair masses proposed are exactly those of real three-body decays, and since they are given to the sampler with density one they are proposed with constant density over that region.", "quantifier": "for all masses and decays", "why_tests_cant": "needs the density over the whole region", "anchors": ["projects/interactions/private/HNLDecay.cxx:1268-1295", "projects/interactions/private/HNLDecay.cxx:1040-1042"]}
{"id": "C98", "title": "Three-body widths are not negative", "statement": "The differential three-body width of HNLDecay is a non-negative number at every allowed phase space point for each helicity.", "quantifier": "for all masses, mixings, flavours, helicities, momenta and phase space points", "why_tests_cant": "negative values appear in parts of phase space only", "anchors": ["projects/interactions/private/HNLDecay.cxx:1136-1201", "projects/interactions/private/HNLDecay.cxx:1249-1261"]}
{"id": "C99", "title": "A quadtree query returns exactly the overlapping values", "statement": "After any sequence of legal additions and removals the tree of Interpolation.h holds exactly the values added and not removed, a query whose box overlaps the tree's box returns exactly those whose boxes overlap it, each as often as it is held, and the depth and leaf-size limits hold; calls are refused exactly if the value lies outside the tree's box (add) or is not held (remove).", "quantifier": "for all value types, box functions, tree boxes, legal histories and query boxes", "why_tests_cant": "A test inserts some boxes and queries some points; splitting and merging depend on the whole history, which is unbounded.", "anchors": ["projects/math/public/SIREN/math/Interpolation.h:957-1225"]}
{"id": "C100", "title": "The quadtree reports each intersecting pair once", "statement": "After any legal history findAllIntersections returns, for every two values held whose boxes overlap, exactly one of the two ordered pairs, and nothing else.", "quantifier": "for all value types, box functions, tree boxes and legal histories", "why_tests_cant": "The number of pairs and the shapes of the tree are unbounded; a duplicate or missing pair appears only for particular positions.", "anchors": ["projects/math/public/SIREN/math/Interpolation.h:1029-1036,1227-1259"]}
{"id": "C101", "title": "Coordinate transforms are invertible and monotonic", "statement": "Every Transform that a constructor of Interpolation.h makes is undone by its Inverse in both directions, is strictly increasing (a RangeTransform from high to low strictly decreasing), is undefined only for LogTransform at numbers that are not positive, and is restored unchanged from its archive; SymLogTransform built from a vector takes the least non-zero absolute value and throws exactly if there is none.", "quantifier": "for all transforms, all real arguments and all vectors", "why_tests_cant": "Tests sample points; the two branches of the symmetric logarithm must join without gap or overlap for every minimum.", "anchors": ["projects/math/public/SIREN/math/Interpolation.h:67-249"]}
{"id": "C102", "title": "Transforms and operators compare consistently", "statement": "Equality of transforms is an equivalence that implies the same function; the order is a strict weak order compatible with it; equality of linear operators is symmetric.", "quantifier": "for all pairs and triples of transforms and of operators", "why_tests_cant": "Tests compare a few objects; the claim ranges over all classes and parameters.", "anchors": ["projects/math/public/SIREN/math/Interpolation.h:44-57", "projects/math/public/SIREN/math/Interpolation.h:216-225", "projects/math/public/SIREN/math/Interpolation.h:260-302"]}
{"id": "C103", "title": "Interpolation operators reproduce nodes, bounds and polynomials", "statement": "Linear interpolation passes through both points, stays between them and reproduces straight lines; bilinear interpolation takes the corner values, is linear along edges, stays between the extreme values in the cell and reproduces bilinear functions; the Drop variants return zero exactly when an end (an edge of the cell) is zero and otherwise agree.", "quantifier": "for all nodes, values and arguments", "why_tests_cant": "The claim is about all real arguments, and a wrong weight may be invisible at the sampled ones.", "anchors": ["projects/math/public/SIREN/math/Interpolation.h:251-296", "projects/math/public/SIREN/math/Interpolation.h:779-809"]}
{"id": "C104", "title": "A regular indexer finds the bin", "statement": "A RegularIndexer1D of equally spaced data returns, for every number within the data, the two neighbouring places between whose values it lies (lower end included), the end bins outside, and always places within the data; construction throws exactly if there are not two different values.", "quantifier": "for all data, lengths and arguments", "why_tests_cant": "Tests use one spacing and random points; the claim includes all ends, orders and huge arguments.", "anchors": ["projects/math/public/SIREN/math/Interpolation.h:432-503"]}
{"id": "C105", "title": "An irregular indexer finds the bin", "statement": "An IrregularIndexer1D returns for every number its two neighbours in the sorted data, and below a rising transform (TransformIndexer1D) the neighbours in the original data.", "quantifier": "for all data with two different values, all rising transforms and all arguments", "why_tests_cant": "The search is over unbounded data with repetitions and arguments at the ends.", "anchors": ["projects/math/public/SIREN/math/Interpolation.h:506-623"]}
{"id": "C106", "title": "A grid indexer returns the corners of the cell", "statement": "GridIndexer2D returns for every position the first entries given for the four corners of the cell that contains it if the points form a full grid, throws only if a corner is missing, and never returns anything else.", "quantifier": "for all point lists in any order with repetitions, all positions, and any one-dimensional indexer that finds bins", "why_tests_cant": "Grids are unbounded and points may come in any order; a swap of corners shows only for non-symmetric grids.", "anchors": ["projects/math/public/SIREN/math/Interpolation.h:847-917"]}
{"id": "C107", "title": "The selected indexer finds the bin", "statement": "SelectIndexer1D returns an indexer that finds the neighbours of every number within the data.", "quantifier": "for all data and offered transforms", "why_tests_cant": "Selection compares sums of rounding-size errors; whether the choice is sound depends on all data.", "anchors": ["projects/math/public/SIREN/math/Interpolation.h:625-732"]}
{"id": "C108", "title": "The Delaunay indexer finds the triangle", "statement": "DelaunayIndexer2D returns for every point of the triangulated region a triangle of the triangulation that contains it, the null pointer for every other point, and the test for a point in a triangle holds exactly for inner points.", "quantifier": "for all data points, all triangulations by numbers of existing points, and all positions", "why_tests_cant": "The quadtree splits differently for each data set; whether every triangle is reachable depends on all of them.", "anchors": ["projects/math/public/SIREN/math/Interpolation.h:1264-1403"]}
{"id": "C109", "title": "Simplex interpolation is linear in each triangle", "statement": "LinearDelaunayInterpolator2D reproduces affine functions, agrees along shared edges and with the data at the nodes, stays within the range of the data, and with transforms of the coordinates does so in the transformed coordinates.", "quantifier": "for all nodes, values, triangulations and positions", "why_tests_cant": "A continuum of triangles and positions; errors cancel in symmetric tests.", "anchors": ["projects/math/public/SIREN/math/Interpolation.h:815-845", "projects/math/public/SIREN/math/Interpolation.h:1460-1503"]}
{"id": "C110", "title": "Depths along a path", "statement": "For every path reached by calls within reason, the depth a signed distance along or against the path from its first or last point is the depth between those two points of the line, with the sign of the distance; depths within the path are those of the distance brought between zero and its length, and the two parts of a path add up to the whole. The distance found for a depth has that depth, to within the accuracy of the search. Extending, shrinking, extending up to and shrinking down to a depth change the depth of the path accordingly.", "quantifier": "for all detectors whose depths are additive along lines (column depths of the detector model are), all sequences of calls on a path, all distances and depths", "why_tests_cant": "the functions come in dozens of variants that differ in an end, a sign or a clamp; a test picks one path and a few distances", "anchors": ["projects/detector/private/Path.cxx:361-523", "projects/detector/private/Path.cxx:529-821"]}
{"id": "C111", "title": "Points relative to a path", "statement": "A point counts as within a path exactly if its projection on the line of the path is between the end points, in either frame; its distance from the start is that of its projection, brought between zero and the length.", "quantifier": "for all sequences of calls on a path and all points", "why_tests_cant": "the two frames have separate code, with a tolerance in only one of them", "anchors": ["projects/detector/private/Path.cxx:824-881"]}
{"id": "C112", "title": "Ray against triangle", "statement": "WoopIntersect reports a hit exactly when the line of the ray meets the triangle (borders included) and is not parallel to it; the distance is that of the common point and front_face holds exactly when the ray goes against the normal given by the order of the corners.", "quantifier": "every ray with a direction other than zero and every triangle", "why_tests_cant": "The permutation of axes, the shear and the sign conventions agree only by an algebraic identity over six cases; tests sample a few directions.", "anchors": ["projects/geometry/private/GeometryMesh.cxx:40-64", "projects/geometry/private/GeometryMesh.cxx:80-117"]}
{"id": "C113", "title": "Search of the box tree", "statement": "BuildBVH ends within the room reserved and ComputeIntersections finds, through the tree, exactly the crossings that trying every triangle finds, reading no index out of range.", "quantifier": "every mesh, every result of nth_element, every ray; completeness for coordinates that are floats and at most 65535 triangles", "why_tests_cant": "Depends on the whole recursion of the construction, on the explicit stacks and on rounding of bounds; a lost triangle shows only on particular rays.", "anchors": ["projects/geometry/private/GeometryMesh.cxx:256-374", "projects/geometry/private/GeometryMesh.cxx:380-443", "projects/geometry/private/GeometryMesh.cxx:120-156"]}
{"id": "C114", "title": "Merging of crossings", "statement": "The crossings returned are in increasing order, apart by at least one part in 10^12, each is one that was found, and every one found is returned or stands within the tolerance after one returned.", "quantifier": "every mesh, ray and every way of sorting", "why_tests_cant": "A bound on what is dropped for all lists of distances.", "anchors": ["projects/geometry/private/GeometryMesh.cxx:445-471"]}
{"id": "C115", "title": "Test for closed meshes", "statement": "ValidateClosed accepts a mesh exactly when it is not empty and every two places are joined by no side or by exactly two sides of proper triangles; it reports holes exactly when a side is alone and crowding exactly when one is shared by more than two.", "quantifier": "every mesh", "why_tests_cant": "Quantifies over all meshes and pairs of places.", "anchors": ["projects/geometry/private/GeometryMesh.cxx:496-574"]}
{"id": "C116", "title": "Crossings of a closed mesh balance", "statement": "On a line meeting no side of a closed mesh whose faces are turned alike, as many crossings enter as leave; of any accepted mesh with distinct corners apart there is an even number.", "quantifier": "every such mesh and every line that meets no side", "why_tests_cant": "A topological fact over all closed meshes, on which the inside test of the geometry rests.", "anchors": ["projects/geometry/private/GeometryMesh.cxx:380-443", "projects/geometry/private/GeometryMesh.cxx:496-574"]}
{"id": "C117", "title": "Crossings with a cylinder", "statement": "For every cylinder with inner radius at least zero and smaller than the outer one, and every line that keeps clear of the rims and whose points on walls and lids are farther apart than the precision, ComputeIntersections returns exactly the points where the line changes between outside and inside, strictly in order, entering and leaving by turns, at the positions on the line; the bounding box holds the whole cylinder; radii given in either order make the same cylinder.", "quantifier": "all radii, heights, lines and sorting routines", "why_tests_cant": "a test tries a few rays; the claim is about every ray and both barrels and lids together", "anchors": ["projects/geometry/private/Cylinder.cxx:66-162", "projects/geometry/private/Cylinder.cxx:223-229", "projects/geometry/private/Cylinder.cxx:40-45"]}
{"id": "C118", "title": "Crossings with an ellipsoid", "statement": "For every ellipsoid cut at two heights and every line that does not touch it and keeps clear of the rims, ComputeIntersections returns exactly the points where the line changes between outside and inside, in order and by turns; the bounding box holds the whole solid; the constructor rejects exactly what leaves nothing and moving cuts to the poles takes away no point.", "quantifier": "all half axes, cuts, lines and sorting routines", "why_tests_cant": "tests use rays along axes; touching rays and rays past a pole differ", "anchors": ["projects/geometry/private/Ellipsoid.cxx:62-198", "projects/geometry/private/Ellipsoid.cxx:201-215", "projects/geometry/private/Ellipsoid.cxx:25-34"]}
{"id": "C119", "title": "Crossings with an elliptical tube", "statement": "For every elliptical tube and every line neither nearly parallel to the axis nor to the lids that keeps clear of the rims, ComputeIntersections returns exactly the points where the line changes between outside and inside, in order and by turns; the bounding box holds the whole tube.", "quantifier": "all half axes, heights, lines and sorting routines", "why_tests_cant": "tests use a few rays", "anchors": ["projects/geometry/private/EllipticalTube.cxx:42-156", "projects/geometry/private/EllipticalTube.cxx:159-164"]}
{"id": "C120", "title": "Crossings with a trapezoid", "statement": "For every trapezoid (Trd) and every line that avoids its edges and is not nearly parallel to a face, ComputeIntersections returns exactly the points where the line changes between outside and inside, in order and by turns; the bounding box holds the whole solid.", "quantifier": "all half widths, lines and sorting routines", "why_tests_cant": "tests use a few rays; the six faces with their slopes interact", "anchors": ["projects/geometry/private/Trd.cxx:44-259", "projects/geometry/private/Trd.cxx:262-269"]}
{"id": "C121", "title": "Crossings with a parallelepiped", "statement": "For every parallelepiped and every line not nearly parallel to a face, ComputeIntersections returns an entry and an exit that bound exactly the part of the line in the solid (moved to the origin when less than the precision ahead), and nothing exactly if no point of the line is in it; the bounding box holds the whole solid; the constructor rejects exactly half lengths that are not positive.", "quantifier": "all half lengths, angles and lines", "why_tests_cant": "tests use a few rays and upright shapes", "anchors": ["projects/geometry/private/Para.cxx:21-65", "projects/geometry/private/Para.cxx:126-183", "projects/geometry/private/Para.cxx:186-209"]}
{"id": "C122", "title": "Crossings with a general trapezoid", "statement": "For every general trapezoid with flat sides that have not shrunk, the planes computed from its corners bound exactly the points between the corners, and for every line not nearly parallel to a face ComputeIntersections returns an entry and an exit that bound exactly the part of the line between the corners, and nothing if that is at most a point; the bounding box holds all points between the corners.", "quantifier": "all dimensions, angles and lines", "why_tests_cant": "tests use a few rays and shapes; wedges and twisted shapes differ", "anchors": ["projects/geometry/private/Trap.cxx:58-112", "projects/geometry/private/Trap.cxx:115-199", "projects/geometry/private/Trap.cxx:222-276", "projects/geometry/private/Trap.cxx:279-285"]}
{"id": "C123", "title": "Codes of Euler orders", "statement": "The packed code of each of the 24 Euler orders decodes to the axes and frame that its name spells; the codes are distinct and fill 0 to 23.", "quantifier": "for all orders", "why_tests_cant": "the tests try a few orders and never decode every code", "anchors": ["projects/math/public/SIREN/math/EulerAngles.h:18-103"]}
{"id": "C124", "title": "Quaternion of Euler angles", "statement": "The quaternion made from Euler angles is a unit quaternion and rotates every vector as the three turns about the named axes do, fixed or moving as named.", "quantifier": "for all orders, angles and vectors", "why_tests_cant": "tests compare one order with a hand-made formula at sample angles", "anchors": ["projects/math/public/SIREN/math/Conversions.h:20-78"]}
{"id": "C125", "title": "Matrix of Euler angles", "statement": "The matrix made from Euler angles acts on every vector as the three turns about the named axes do.", "quantifier": "for all orders, angles and vectors", "why_tests_cant": "no test calls the function", "anchors": ["projects/math/public/SIREN/math/Conversions.h:129-190"]}
{"id": "C126", "title": "Euler angles of a rotation matrix", "statement": "The angles read from a rotation matrix make turns that act as the matrix does; close to a pole no element is off by more than 32 epsilon.", "quantifier": "for all orders and rotation matrices", "why_tests_cant": "tests sample matrices and compare with a tolerance", "anchors": ["projects/math/public/SIREN/math/Conversions.h:80-127"]}
{"id": "C127", "title": "Euler angles of a quaternion", "statement": "The angles read from a quaternion make turns that rotate as the quaternion does, and give the quaternion back up to sign.", "quantifier": "for all orders and quaternions", "why_tests_cant": "tests only use unit quaternions", "anchors": ["projects/math/public/SIREN/math/Conversions.h:192-221", "projects/math/public/SIREN/math/EulerQuaternionConversions.h:36-121"]}
{"id": "C128", "title": "Matrix algebra and indexing", "statement": "Matrix products compose, distribute and scale; indexing by row and column reads and writes that element alone and throws outside 0 to 2.", "quantifier": "for all matrices, vectors and indices", "why_tests_cant": "tests multiply a few matrices and never index out of range", "anchors": ["projects/math/private/Matrix3D.cxx:175-411"]}
{"id": "C129", "title": "Area under the positive part of a quadratic", "statement": "integratePositivePartQuadratic returns the integral of max(0, a2 c^2 + a1 c + a0) over [lo, hi]: exactly when the quadratic term is zero or at least 1e-12 of the scale, and for cosines within 2e-12 of the scale times the width always; reversed intervals give zero", "quantifier": "all coefficients and all intervals", "why_tests_cant": "Signs of three coefficients, two roots and two ends give many orders; a wrong piece only shows for some of them", "anchors": ["projects/interactions/public/SIREN/interactions/CharmDecayKinematics.h:82-117"]}
{"id": "C130", "title": "Mean V-A weight of charmed meson decays", "statement": "The weight that the sampler accepts on is the stated quadratic in the cosine between lepton and hadron for all directions, VAWeightAngleAverage is the mean of its accepted part, and SampledQ2Density is the acceptance of the inner loop times that mean, per square of the pair mass", "quantifier": "all masses with an open phase space, all directions", "why_tests_cant": "The weight goes through two frames; agreement of a sampler with a density needs an integral over all draws", "anchors": ["projects/interactions/public/SIREN/interactions/CharmDecayKinematics.h:119-184", "projects/interactions/private/CharmMesonDecay.cxx:380-437"]}
{"id": "C131", "title": "Charmed meson decays conserve four-momentum", "statement": "The three secondaries are on their mass shells and add up to the four-momentum of the meson, the momentum transfer seen by the density is the drawn pair mass, and other decays leave one secondary with the meson's momentum", "quantifier": "all supported mesons, signatures, momenta and drawn numbers", "why_tests_cant": "A boost with another mass than the rest frame's conserves nothing but looks right for table masses", "anchors": ["projects/interactions/private/CharmMesonDecay.cxx:277-463"]}
{"id": "C132", "title": "Widths and signatures of charmed mesons", "statement": "The widths of the possible signatures of a meson are positive and add up to hbar over the lifetime, conserve charge and lepton numbers, are mirrored for antiparticles, and only possible signatures have a width", "quantifier": "all particle types and lists of secondaries", "why_tests_cant": "Two lists written twice by hand in if-chains have to agree for every meson", "anchors": ["projects/interactions/private/CharmMesonDecay.cxx:46-270"]}
{"id": "C133", "title": "Density of charmed meson decays is the sampled mixture", "statement": "Fractions of the density are the shares of numbers with which the sampler takes each hadron mass, the nearest component is the one sampled, and the cached normalisation is that of its own arguments", "quantifier": "all mesons, runs of the sampler and cache states reached with table masses", "why_tests_cant": "Shares of draws and collisions of rounded keys are not visible in single calls", "anchors": ["projects/interactions/private/CharmMesonDecay.cxx:311-345", "projects/interactions/private/CharmMesonDecay.cxx:469-545", "projects/interactions/public/SIREN/interactions/CharmDecayKinematics.h:189-203"]}
{"id": "C134", "title": "The trapezium integrator refines the trapezium rule", "statement": "Asked for detail d, a fresh TrapezoidalIntegrator gives the trapezium rule with 2^d equal panels; asking in steps gives the same as asking at once, asking for a coarser level changes nothing, and exchanging the bounds changes the sign.", "quantifier": "all functions, bounds and detail levels", "why_tests_cant": "the value is a sum over 2^d points built up over several calls; a test sees a few functions at a few levels, where a missed or repeated point is within the tolerance", "anchors": ["projects/utilities/public/SIREN/utilities/Integration.h:18-93"]}
{"id": "C135", "title": "Romberg integration is exact on polynomials up to degree nine", "statement": "A value returned by rombergIntegrate for a polynomial of degree at most nine is its integral, for all bounds and tolerances; up to degree seven a value is always returned; exchanging the bounds changes the sign only; a negative tolerance is refused.", "quantifier": "all polynomials up to degree nine, bounds and tolerances", "why_tests_cant": "a wrong entry of the extrapolation table still converges to nearly the right value for smooth functions", "anchors": ["projects/utilities/public/SIREN/utilities/Integration.h:107-152"]}
{"id": "C136", "title": "The two-dimensional Simpson rule is exact on bicubic polynomials", "statement": "A value returned by simpsonIntegrate2D for a polynomial of degree at most three in each variable is its double integral, whatever the (positive) numbers of intervals, odd ones included; with a positive tolerance a value is returned within three refinements.", "quantifier": "all bicubic polynomials, rectangles, tolerances and numbers of intervals", "why_tests_cant": "a wrong weight changes the value by a fraction that shrinks with the number of intervals", "anchors": ["projects/utilities/public/SIREN/utilities/Integration.h:167-211"]}
{"id": "C137", "title": "Sampled energy loss of a charmed meson", "statement": "A meson and hadron sampled by DMesonELoss are on their mass shells (the hadron massless), share exactly the energy of the primary, move along it, and the meson loses at least a thousandth of the energy; a fraction is accepted exactly when it leaves the meson at least its mass; every such fraction is reached by some draws; a meson at rest, or a thousand refused trials, give an injection failure.", "quantifier": "All momenta, masses not below zero and lists of numbers drawn.", "why_tests_cant": "The accepted losses form a continuum near the edges z_min and 1-m/E, and the cap is only met by rare sequences of draws.", "anchors": ["projects/interactions/private/DMesonELoss.cxx:149-222", "projects/interactions/public/SIREN/interactions/DMesonELoss.h:48-49"]}
{"id": "C138", "title": "Density of the energy loss of a charmed meson", "statement": "FinalStateProbability of DMesonELoss is a probability density over exactly the losses that the sampler can produce: positive there, zero elsewhere, and of integral one when the Romberg integral is exact; the total cross section is positive from one GeV on, grows with the energy and refuses other primaries; the signatures are one for each of the six mesons.", "quantifier": "All masses, energies from one GeV on, all supported mesons, any quadrature.", "why_tests_cant": "Closure between a sampler and its density is a statement about an integral over all losses.", "anchors": ["projects/interactions/private/DMesonELoss.cxx:64-141", "projects/interactions/private/DMesonELoss.cxx:224-232"]}
{"id": "C139", "title": "Possible decays of the W and Z bosons", "statement": "The signatures of ElectroweakDecay for a W or Z are exactly the two-body decays into quarks and leptons other than top that keep charge, baryon number and the three lepton numbers, each listed once; those of the two W bosons are antiparticles of each other.", "quantifier": "All bosons and all pairs of particle types.", "why_tests_cant": "A test would list the decays again; the claim is an equivalence with conservation laws.", "anchors": ["projects/interactions/private/ElectroweakDecay.cxx:260-328", "projects/interactions/public/SIREN/interactions/ElectroweakDecay.h:44-68"]}
{"id": "C140", "title": "Widths of the W and Z bosons", "statement": "A possible decay has positive width exactly when the boson is heavier than its products; the total widths are the sums over the channels in three colours, equal for both W bosons and within 2e-5 of nine equal channels; for a boson of more than twice the bottom mass the widths at its own mass add up to the total width.", "quantifier": "All bosons, masses and channels.", "why_tests_cant": "The masses of the record form a continuum, thresholds included.", "anchors": ["projects/interactions/private/ElectroweakDecay.cxx:23-183", "projects/utilities/public/SIREN/utilities/Constants.h:81-152"]}
{"id": "C141", "title": "Sampled decays of the W and Z bosons", "statement": "For every possible decay and boson not lighter than its products, sampling gives two products on their mass shells with their masses that carry the energy and momentum of the boson, whatever is drawn; the cosine is uniform and FinalStateProbability is its density, one half.", "quantifier": "All momenta, masses, channels and numbers drawn.", "why_tests_cant": "Conservation must hold for a continuum of momenta and draws.", "anchors": ["projects/interactions/private/ElectroweakDecay.cxx:189-248"]}
{"id": "C142", "title": "The define sections of a GDML file mean what they say", "statement": "The explicit stack of ResolveDefineInOrder ends with exactly the data that the document means: the elements of the sections take effect in the order of the document, and loops repeat their bodies in place, nested loops included.", "quantifier": "All documents whose sections and nested loops together are not more than 64, all evaluators of texts.", "why_tests_cant": "Documents nest without bound; equivalence of a stack machine with a recursive meaning is not a finite check.", "anchors": ["projects/detector/private/gdml/GDMLDefineParser.cxx:13-220"]}
{"id": "C143", "title": "Resolving the define sections stops and keeps the built-in constants", "statement": "For every document in which no loop changes its own variable the resolution stops with a result or an exception, and at every moment of every resolution the built-in constants have their first values.", "quantifier": "All documents, expressions and numbers of turns.", "why_tests_cant": "Termination and invariants over all documents.", "anchors": ["projects/detector/private/gdml/GDMLDefineParser.cxx:71-219"]}
{"id": "C144", "title": "A loop in a define section is its unrolling", "statement": "A loop whose body does not change its variable has the effect of its body once for each value from, from+step, ... in range, and no other; afterwards the variable has the last value in range; a step of zero is taken for one.", "quantifier": "All loops, steps of either sign and bodies.", "why_tests_cant": "Real limits and steps and unbounded numbers of turns.", "anchors": ["projects/detector/private/gdml/GDMLDefineParser.cxx:74-123"]}
{"id": "C145", "title": "Pointer suffixes of GDML names", "statement": "StripPointerSuffix removes from a name exactly the address of a pointer, 0x and at least seven hexadecimal digits at the end of a longer name, and leaves all other names; numbered names are distinct and can be read back.", "quantifier": "All names.", "why_tests_cant": "All strings.", "anchors": ["projects/detector/private/gdml/GDMLParserPrivate.h:49-61", "projects/detector/private/gdml/GDMLParserPrivate.h:274-295"]}
{"id": "C146", "title": "Repeated GDML definitions are all kept", "statement": "After the definitions of a section are stored and flattened, every definition is in the map, under its name if the name has one definition and under a number of the name otherwise; what was in the map under other names stays; the order of the hash maps does not matter.", "quantifier": "All sequences of definitions in which no name looks like a number of another, all equalities, all orders of the hash maps.", "why_tests_cant": "All sequences and all orders of hash maps.", "anchors": ["projects/detector/private/gdml/GDMLParserPrivate.h:155-301"]}
{"id": "C147", "title": "References to GDML definitions mean the right definition", "statement": "A volume that refers to a material or solid by a name of the document gets the last definition under this name, or an exception if the name is bare and has two different definitions; references that are resolved while reading keep meaning the last definition before them; Lookup finds the last definition.", "quantifier": "All sequences of definitions without names that look like numbers of others, all orders.", "why_tests_cant": "All sequences.", "anchors": ["projects/detector/private/gdml/GDMLParserPrivate.h:65-68", "projects/detector/private/gdml/GDMLParserPrivate.h:183-213", "projects/detector/private/gdml/GDMLStructureParser.cxx:145-181"]}
{"id": "C148", "title": "Merging an included GDML file", "statement": "MergeFrom ends; it leaves all that this file defines; it renames exactly the names that both files define differently, to names that neither file has; all that the included file defines is there under its new name, itself or what this file had under it.", "quantifier": "All pairs of files as the parser leaves them, all orders of the hash maps.", "why_tests_cant": "All pairs of files.", "anchors": ["projects/detector/private/GDMLParser.cxx:29-149"]}
{"id": "C149", "title": "An included GDML file means the same after the merge", "statement": "After the merge every definition of the included file is there with all its references renamed.", "quantifier": "All pairs of files in which the definitions on which both agree mention no name on which they differ.", "why_tests_cant": "All pairs of files.", "anchors": ["projects/detector/private/GDMLParser.cxx:55-142"]}
{"id": "C150", "title": "Composite children become mass fractions", "statement": "When a GDML material is given by numbers of atoms, the fraction stored for each part is n_i*A_i over the sum of n_j*A_j, where A_i is the mass of the latest definition of the referenced name among isotopes, elements and materials in this order; the fractions of distinct parts add up to one and do not depend on the unit of mass", "quantifier": "for all documents, references, numbers of atoms and masses", "why_tests_cant": "tests use water and one or two compounds with elements that carry an atom child; repeated references and elements given by isotopes are not tried", "anchors": ["projects/detector/private/gdml/GDMLMaterialParser.cxx:180-241"]}
{"id": "C151", "title": "Nested compositions resolve to nuclei", "statement": "Resolving a component always ends; it succeeds exactly if every name below it is defined and no name is part of itself, and then gives every nucleus the weight times its share in the component; materials whose mixtures add up to one come out with nuclei that add up to one", "quantifier": "for all graphs of compositions, weights and materials", "why_tests_cant": "tests use acyclic compositions two or three deep; cycles through several names, diamonds and long chains are an infinite family", "anchors": ["projects/detector/private/DetectorModel.cxx:644-721"]}
{"id": "C152", "title": "Volumes become sectors at the right places", "statement": "Flattening the GDML volumes always ends; it succeeds exactly if every reference below the world is defined and no volume is inside itself; the sectors are then one per placed volume that is not an assembly, in preorder, and the map from world to local coordinates of each is the composition of the shifts and passive rotations of the physvols on its path", "quantifier": "for all volume graphs, aliases, positions, angles and depths", "why_tests_cant": "tests place two or three volumes with simple rotations; deep chains, shared volumes and cycles through several volumes are an infinite family", "anchors": ["projects/detector/private/DetectorModel.cxx:723-813", "projects/detector/private/gdml/GDMLReadUtils.cxx:65-129"]}
{"id": "C153", "title": "Levels and names of GDML sectors", "statement": "The levels of the sectors count up from zero in preorder, so that what is inside a volume outranks it and later siblings outrank earlier ones; no two sectors share a name or a level, and a volume keeps its name if it is free", "quantifier": "for all volume graphs", "why_tests_cant": "tests check a handful of names; collisions of generated names with given ones are not tried", "anchors": ["projects/detector/private/DetectorModel.cxx:247-259", "projects/detector/private/DetectorModel.cxx:762-785"]}
{"id": "C154", "title": "Replicas are evenly spaced and centred", "statement": "A replicavol of n copies gives n unturned children; the i-th is at offset + (i - (n-1)/2) width along the unit direction, neighbours are one width apart and the copies are symmetric about the offset; the number of copies is the number written", "quantifier": "for all numbers of copies, directions, widths and offsets", "why_tests_cant": "tests use two or three copies along an axis", "anchors": ["projects/detector/private/gdml/GDMLStructureParser.cxx:185-247"]}
{"id": "C155", "title": "Deferred GDML booleans", "statement": "When no solid name is repeated and none has a pointer suffix, parsing the solids ends and binds every name to exactly the shape the document describes, whatever the order of its children; the booleans skipped with a warning are exactly those with no meaning.", "quantifier": "for all lists of solid elements, in any order, with operands before or after", "why_tests_cant": "Documents and orders are without bound", "anchors": ["projects/detector/private/gdml/GDMLSolidParser.cxx:405-584"]}
{"id": "C156", "title": "Which solid a boolean is made of", "statement": "A boolean is made of the solids its operands name, at once if both are known, and repeated names keep the order of the document.", "quantifier": "for all documents and trackers", "why_tests_cant": "Needs repeated base names together with deferral", "anchors": ["projects/detector/private/gdml/GDMLSolidParser.cxx:431-505", "projects/detector/private/gdml/GDMLSolidParser.cxx:535-575"]}
{"id": "C157", "title": "Mass density at a point", "statement": "The mass density and the particle density that a list of crossings gives for a point of its line are those of the highest sector that has the point; at a boundary they are those of one sector, on the side of the list's own position.", "quantifier": "for all arrangements of sectors within an outermost one, all lines and all points on them, before and behind", "why_tests_cant": "Arrangements of sectors and points are without bound", "anchors": ["projects/detector/private/DetectorModel.cxx:821-860", "projects/detector/private/DetectorModel.cxx:877-917"]}
{"id": "C158", "title": "Interaction rate at a point", "statement": "The interaction density at a point is density times number of targets times cross section in the highest sector, in inverse metres, plus the inverse decay length, and the interaction depth between two points is its integral.", "quantifier": "for all arrangements, targets, cross sections, lines and points", "why_tests_cant": "Real-valued inputs and arrangements without bound", "anchors": ["projects/detector/private/DetectorModel.cxx:919-988"]}
{"id": "C159", "title": "The cumulative table of a tabulated flux", "statement": "For every density that has flux in at least one interval, every pair of bounds and every ascending list of nodes, the cumulative table rises strictly from 0 to 1, its energies rise strictly from the lower bound and stay within the bounds; every interval with flux is a step of the table whose probability is, up to one common factor, the area of its trapezoid, and every other step spans only intervals without flux. With flux everywhere the cumulative value at an energy is the area up to it over the whole area.", "quantifier": "for all densities, bounds and ascending node lists", "why_tests_cant": "Tests build a few smooth fluxes; gaps, bounds between nodes and the normalisation after gaps form an unbounded space.", "anchors": ["projects/distributions/private/primary/energy/TabulatedFluxDistribution.cxx:126-191", "projects/distributions/private/primary/energy/TabulatedFluxDistribution.cxx:193-199"]}
{"id": "C160", "title": "The energy sampled from a tabulated flux", "statement": "For every number in (0, 1] the energy sampled is within the bounds, is at the same fraction of the way between two successive table energies as the number is between their cumulative values, and is at most a table energy exactly when the number is at most the cumulative value there (cumulative values evenly spaced, or clearly not). The generation probability should be the density of the energies sampled.", "quantifier": "for all densities, bounds, node lists and numbers drawn", "why_tests_cant": "A sampled histogram cannot tell the piecewise-uniform density from the piecewise-linear one, and the number 0 or a gap is never drawn in practice.", "anchors": ["projects/distributions/private/primary/energy/TabulatedFluxDistribution.cxx:259-277", "projects/utilities/public/SIREN/utilities/Interpolator.h:121-136"]}
{"id": "C161", "title": "Vertices drawn uniformly in a cylinder", "statement": "For every cylinder, placement and triple of numbers drawn, the squared distance from the axis, the azimuth and the height of the point divide their ranges as the numbers divide the unit interval; so the share of the numbers that lead to any part of the cylinder is the generation probability times the volume of that part. Away from the ends of the unit interval the generation probability of a sampled vertex is one over the volume, and along a line clear of the rims sampling does not fail, starts behind the vertex, and agrees with the injection bounds of the same event.", "quantifier": "for all cylinders, placements, directions and numbers drawn", "why_tests_cant": "Uniformity is a statement about all parts of the volume; histograms test a few bins and never hit edges or cut cylinders.", "anchors": ["projects/distributions/private/primary/vertex/CylinderVolumePositionDistribution.cxx:24-88"]}
{"id": "C162", "title": "Vertices drawn uniformly in a spherical shell", "statement": "For every shell, placement and triple of numbers drawn, the cube of the distance from the centre, the azimuth and the cosine of the zenith divide their ranges as the numbers divide the unit interval; so the share of the numbers that lead to any part of the shell is the generation probability times the volume of that part. Sampling never fails, starts on the outer surface behind the vertex, and agrees with the injection bounds of the same event.", "quantifier": "for all shells, placements, unit directions and numbers drawn", "why_tests_cant": "Uniformity is a statement about all parts of the volume; histograms test a few bins.", "anchors": ["projects/distributions/private/primary/vertex/SphereVolumePositionDistribution.cxx:23-103"]}
{"id": "C163", "title": "Reading a table of primary particles", "statement": "For every text, threshold and reading of numbers: loading succeeds exactly when the columns of each position or momentum are all named or all missing, every line below the header that is neither blank nor a comment has exactly as many columns as the header, each a number, and at least one row has no energy below the threshold; the table then holds exactly those rows in order, under the names of the header without the white space around them. A file with one bad line is refused.", "quantifier": "for all file contents, thresholds and number readers", "why_tests_cant": "The exact set of accepted texts cannot be enumerated; tests use a few clean files.", "anchors": ["projects/distributions/private/primary/PrimaryExternalDistribution.cxx:21-113"]}
{"id": "C164", "title": "Drawing from a table of primary particles", "statement": "For every table that was loaded and every number drawn, sampling never reads an unwritten or missing value, copies exactly the chosen row to the record (the vertex doubling as initial position when there is none), leaves everything else as it was, and every row is chosen by the same share of the numbers. With an energy column the generation probability of the record drawn is one.", "quantifier": "for all loaded tables, numbers drawn and records", "why_tests_cant": "Tests draw a few rows of one file; missing columns, repeated names and the edges of the shares are not covered.", "anchors": ["projects/distributions/private/primary/PrimaryExternalDistribution.cxx:121-194"]}
{"id": "C165", "title": "Ranges of azimuths", "statement": "For vectors off the edges the range test decides whether the azimuth lies between the start and the end of the range; for a line clear of edges and axis the hits with the two half planes are exactly the places where it enters or leaves the range, rightly marked, and the initial state is the one far behind", "quantifier": "all starts, all extents below a turn, all clear lines", "why_tests_cant": "wrap-around of angles, ranges wider than half a turn and all directions form a continuum", "anchors": ["projects/geometry/private/PhiUtils.h:18-67", "projects/geometry/private/Cylinder.cxx:164-190", "projects/geometry/private/Cylinder.cxx:40-51"]}
{"id": "C166", "title": "Cylinders with a range of azimuths", "statement": "For lines clear of rims and edges the crossings returned for a cylinder with an angular cut are in order, alternate, and describe exactly the part of the cylinder within the range", "quantifier": "all radii, heights, ranges and clear lines", "why_tests_cant": "merging of two kinds of crossings depends on all orders in which a line can meet walls, lids and half planes", "anchors": ["projects/geometry/private/Cylinder.cxx:66-222"]}
{"id": "C167", "title": "Interaction and survival probabilities of an event", "statement": "For an injector of the weighter the functions return one probability per datum in tree order, from the depth seen by the physical process of that particle between its bounds; unknown injectors are refused, and a secondary without process or position empties the answer", "quantifier": "all weighters, injectors, trees and depths", "why_tests_cant": "the answer joins processes of two independent configurations by particle type", "anchors": ["projects/injection/private/Weighter.cxx:158-181", "projects/injection/private/Weighter.cxx:183-208", "projects/injection/public/SIREN/injection/Weighter.tcc:96-152"]}
{"id": "C168", "title": "Planes of polycones", "statement": "A polycone is made exactly of documents with at least two planes, heights that never fall or never rise, radii in order and a positive range of azimuths; its planes are those of the document in rising order with their own radii, the range is cut to a full turn", "quantifier": "all documents, scales and optional azimuths", "why_tests_cant": "all orders of planes with repeated heights", "anchors": ["projects/detector/private/gdml/GDMLReadUtils.cxx:35-53", "projects/detector/private/gdml/GDMLReadUtils.cxx:134-158", "projects/detector/private/gdml/GDMLSolidParser.cxx:163-173", "projects/geometry/private/Polycone.cxx:22-66"]}
{"id": "C169", "title": "Walls of polycones", "statement": "The crossings with a conical wall are exactly the points of the line on the wall within its section, and tell whether the line goes in or out", "quantifier": "all cones, lines and positions with roots not just ahead of the origin", "why_tests_cant": "three branches of a quadratic with a moved origin", "anchors": ["projects/geometry/private/Polycone.cxx:152-322"]}
{"id": "C170", "title": "Steps of polycones", "statement": "Where planes repeat at a height between the ends, entries less exits of the rings at that height are the change of being inside from below to above", "quantifier": "all lists of planes, positions of the repeated height and lines clear of the radii", "why_tests_cant": "grouping of repeated heights with up to four radii", "anchors": ["projects/geometry/private/Polycone.cxx:325-438"]}
{"id": "C171", "title": "Range of the inelasticity in dipole upscattering", "statement": "The bounds of the inelasticity enclose exactly the fractions of energy for which a massless primary can scatter to the heavy lepton with the target recoiling on its mass shell", "quantifier": "all energies above threshold, masses and fractions", "why_tests_cant": "the bounds are closed forms of the kinematics with square roots", "anchors": ["projects/interactions/private/HNLDipoleFromTable.cxx:69-111"]}
{"id": "C172", "title": "Final state of dipole upscattering", "statement": "For an allowed inelasticity the lepton has the remaining energy and its mass, the recoil the mass of the target, and energy and momentum are conserved", "quantifier": "all energies, masses and allowed fractions", "why_tests_cant": "the transverse momentum is a root that exists only in the allowed range", "anchors": ["projects/interactions/private/HNLDipoleFromTable.cxx:406-432"]}
{"id": "C173", "title": "Differential cross section of dipole upscattering", "statement": "The density of an interaction is the table at the inelasticity relative to its target, and zero for fractions that are not allowed", "quantifier": "all tables, interactions and masses", "why_tests_cant": "needs the mass of the target to be the one of the record", "anchors": ["projects/interactions/private/HNLDipoleFromTable.cxx:163-244"]}
{"id": "C174", "title": "Kinematics of the DarkNews upscattering", "statement": "For every Q2 whose lab angle passes the check, the two particles made have their masses and positive energy, energy and momentum are kept and the momentum transfer squared is -Q2; and every Q2 that two-body kinematics allows (with both particles of the quotient moving) passes the check.", "quantifier": "all primary momenta (clear of the x axis), masses, Q2 > 0 and azimuths", "why_tests_cant": "The tests need the Python package and compare a few samples; they do not check the mass of the recoil.", "anchors": ["projects/interactions/private/DarkNewsCrossSection.cxx:159-166", "projects/interactions/private/DarkNewsCrossSection.cxx:225-243"]}
{"id": "C175", "title": "The Q2 chain of the DarkNews upscattering ends in a scattering", "statement": "Whatever the cross section and the numbers drawn, the chain ends with a Q2 of the given range for which the final state is a proper two-body scattering.", "quantifier": "all ranges, cross sections and draws", "why_tests_cant": "Only a draw in a part of the range that is not allowed shows it.", "anchors": ["projects/interactions/private/DarkNewsCrossSection.cxx:179-210"]}
{"id": "C176", "title": "Final state probability of a DarkNews record", "statement": "The probability of a record is the differential cross section at the momentum transfer of the record divided by the total cross section for its primary and target, and zero where one of them is zero.", "quantifier": "all records and all cross sections", "why_tests_cant": "The cross sections are in Python and the weight of a sampled event is not compared with the density it was drawn from.", "anchors": ["projects/interactions/private/DarkNewsCrossSection.cxx:34-63", "projects/interactions/private/DarkNewsCrossSection.cxx:267-277"]}
{"id": "C177", "title": "Kinematics of the dummy cross section", "statement": "For every draw of x and y that some massless lepton can have there is a final state; energy and momentum are kept, the lepton is massless, and its Bjorken variables are x and y.", "quantifier": "all primaries (clear of the x axis), target masses, x, y in the unit interval and azimuths", "why_tests_cant": "The unit tests only use the cross section to run an injector and do not look at the momenta.", "anchors": ["projects/interactions/private/DummyCrossSection.cxx:62-132"]}
{"id": "C178", "title": "Cross section and signatures of the dummy cross section", "statement": "The cross section gives one interaction length for 1000 km of one gram per cubic centimetre at 10^5 GeV and is proportional to the energy, the final state has probability one, and the signatures of a pair of parents are those listed with these parents.", "quantifier": "all energies, primaries and targets", "why_tests_cant": "No test asks for a target that is not supported.", "anchors": ["projects/interactions/private/DummyCrossSection.cxx:40-56", "projects/interactions/private/DummyCrossSection.cxx:134-191"]}
{"id": "C179", "title": "Allowed region of charm production", "statement": "The kinematic check accepts exactly the values of xi and y (above 1e-9) that some outgoing lepton has, with positive momentum transfer and a hadronic mass above target plus D0, and for these the sampler makes a lepton on its mass shell with these values.", "quantifier": "all neutrino momenta (clear of the x axis), lepton and target masses, xi, y and azimuths", "why_tests_cant": "The check and the sampler compute the transverse momentum by different formulae; a test sees only sampled points.", "anchors": ["projects/interactions/private/QuarkDISFromSpline.cxx:37-82", "projects/interactions/private/QuarkDISFromSpline.cxx:750-788"]}
{"id": "C180", "title": "Meson and remnant of charm production", "statement": "Energy and momentum are kept by lepton, remnant and meson; the meson is on its mass shell along the charm, and the remnant has a real mass and positive energy.", "quantifier": "all allowed points and all sequences of drawn momentum shares in the unit interval", "why_tests_cant": "The loop only checks the squared mass of the remnant; that its energy is never negative needs the threshold of the check.", "anchors": ["projects/interactions/private/QuarkDISFromSpline.cxx:796-849"]}
{"id": "C181", "title": "Densities of charm production", "statement": "The variables recomputed from the momenta of a record are the drawn ones; the total cross sections of the meson signatures add up to the total of the spline, and the probability of a final state of a signature is its differential divided by its total cross section.", "quantifier": "all allowed points, all cross sections and mesons", "why_tests_cant": "The weight of a signature alone is not compared with the law of its sampled events.", "anchors": ["projects/interactions/private/QuarkDISFromSpline.cxx:419-438", "projects/interactions/private/QuarkDISFromSpline.cxx:462-513", "projects/interactions/private/QuarkDISFromSpline.cxx:859-869"]}
{"id": "C182", "title": "Table of the fragmentation function", "statement": "The cumulative table for the momentum share of the meson increases and is the integral of the density by trapezia between its nodes.", "quantifier": "all densities", "why_tests_cant": "A shift by one node changes the sampled spectrum by less than a plot shows.", "anchors": ["projects/interactions/private/QuarkDISFromSpline.cxx:365-417"]}
{"id": "C183", "title": "Total cross section of heavy neutral leptons from deep inelastic scattering", "statement": "Below the energy from which the lepton and an isoscalar nucleon can be made the total cross section of a record is zero; from there on it is the spline value times the squared coupling of the family of the neutrino, for listed primaries and tabulated energies, and an error otherwise.", "quantifier": "all cross sections, neutrinos and positive energies", "why_tests_cant": "A wrong family index shows only with three different couplings, and the threshold only near the limit.", "anchors": ["projects/interactions/private/HNLDISFromSpline.cxx:252-288", "projects/interactions/private/HNLDISFromSpline.cxx:364-369", "projects/interactions/private/HNLDipoleDISFromSpline.cxx:253-290"]}
{"id": "C184", "title": "Check of the kinematics of heavy neutral leptons", "statement": "The check of the kinematics accepts a point of the unit square exactly if some lepton of the given mass with real momentum has that energy and momentum transfer; nothing is accepted below the energy from which lepton and target can be made.", "quantifier": "all points, energies, target and lepton masses", "why_tests_cant": "The region has curved edges in five parameters; a sample of points does not show an empty half of it.", "anchors": ["projects/interactions/private/HNLDISFromSpline.cxx:44-57", "projects/interactions/private/HNLDipoleDISFromSpline.cxx:42-59"]}
{"id": "C185", "title": "Probability of a final state with a heavy neutral lepton", "statement": "The probability is the quotient of the two splines without couplings and units wherever the differential cross section is not zero, and zero elsewhere.", "quantifier": "all cross sections, energies and points", "why_tests_cant": "Needs the agreement of the threshold with the check of the kinematics at every energy.", "anchors": ["projects/interactions/private/HNLDISFromSpline.cxx:323-362", "projects/interactions/private/HNLDISFromSpline.cxx:566-573", "projects/interactions/private/HNLDipoleDISFromSpline.cxx:316-357"]}
{"id": "C186", "title": "Signatures of heavy neutral leptons from deep inelastic scattering", "statement": "The constructor fails exactly if a primary is not a neutrino; otherwise there is one signature for each primary and target, in the order of the sets, with the heavy lepton for neutrinos, its antiparticle for antineutrinos, and hadrons.", "quantifier": "all sets of primaries and targets", "why_tests_cant": "Tests use one primary and one target.", "anchors": ["projects/interactions/private/HNLDISFromSpline.cxx:219-250", "projects/interactions/private/HNLDipoleDISFromSpline.cxx:221-251"]}
{"id": "C187", "title": "Construction of injectors with their own position distribution", "statement": "A constructor of a ranged, column depth, decay range or volume injector throws exactly if the given process has an equal distribution; otherwise the position distribution is appended to that process and no other process changes. After any sequence of constructions a process holds its first distributions followed by those of its injectors in order.", "quantifier": "all processes, distributions and sequences of constructions", "why_tests_cant": "The given process is shared and changed; tests make one injector for each process.", "anchors": ["projects/injection/private/RangedLeptonInjector.cxx:26-54", "projects/injection/private/ColumnDepthLeptonInjector.cxx:27-55", "projects/injection/private/DecayRangeLeptonInjector.cxx:26-53", "projects/injection/private/CylinderVolumeLeptonInjector.cxx:22-42"]}
{"id": "C188", "title": "Bounds and vertices of injectors with their own position distribution", "statement": "The distribution whose bounds an injector gives is the one that places its vertices, and the only position density in its generation probability.", "quantifier": "all sequences of constructions from processes without vertex distribution", "why_tests_cant": "Breaks only when a process is used for two injectors, at the first of them and after the second was made.", "anchors": ["projects/injection/private/RangedLeptonInjector.cxx:60-62", "projects/injection/private/Injector.cxx:309-311", "projects/injection/private/Injector.cxx:394-410"]}
{"id": "C189", "title": "Walls of cones", "statement": "For every cone of positive height and every line, the crossings reported for the outer wall of a cone without tip and for the inner wall are points of the line on that wall between the caps up to the precision, each flagged by the way the line goes, and every point where the line passes through the wall between the caps is reported.", "quantifier": "for all cones of positive height, lines not running along the wall or parallel to one of its sides, and roots not within the precision ahead of the start", "why_tests_cant": "A test shoots a few rays; the claim covers every ray, both signs of the leading coefficient, the shifted origin and both halves of the double cone.", "anchors": ["projects/geometry/private/Cone.cxx:118-227", "projects/geometry/private/Cone.cxx:260-328"]}
{"id": "C190", "title": "Caps of cones", "statement": "A crossing reported for a cap is the point of the line at its height, within the radii up to the precision, and is an entry exactly if the line runs into the cone there; every point of the cap that a line not level passes through is reported.", "quantifier": "for all cones whose cap has positive radius and all lines", "why_tests_cant": "Small cones and rays near the rim decide it, which tests with cones of ordinary size do not reach.", "anchors": ["projects/geometry/private/Cone.cxx:330-366"]}
{"id": "C191", "title": "Making cones", "statement": "A cone is made exactly of a positive height with some positive radius, its radii at each end are those given in increasing order and not negative, and its bounding box is the smallest that holds its body.", "quantifier": "for all radii and heights", "why_tests_cant": "The order of exchange and check, and cones wider above or below, are decided for all numbers rather than for some.", "anchors": ["projects/geometry/private/Cone.cxx:31-63", "projects/geometry/private/Cone.cxx:448-455"]}
{"id": "C192", "title": "Crossings of cones", "statement": "For every cone without tip and every line that keeps clear of its rims, the list of crossings is exactly where the line enters and leaves the cone, in order, entering and leaving by turns, each at its place; with a cut in azimuth likewise for the part of the cone in the wedge.", "quantifier": "for all cones with positive outer radii, lines not nearly parallel to walls or caps and keeping clear of rims, orders of sorting, and cuts", "why_tests_cant": "Sorting, dropping of near hits and four surfaces interact; a test sees a few lines, the claim covers all of them, both for solid and hollow cones.", "anchors": ["projects/geometry/private/Cone.cxx:78-445"]}
