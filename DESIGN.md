# Formal model of rsvs3d: design

Source: payoto/rsvs3d, C++ under /repo/SRCC (read as text, not modified, not built). Model: Rocq / Coq 8.16.1, /verif/rocq/theories. Build: `coq_makefile -f _CoqProject -o Makefile && make -j4` in /verif/rocq.

## How to read the development

* `X.v` without suffix (Containers, Mesh, Edit, Flood, Order, Voxel, FloatQuot, Geom, Snake, Codec, Fill, Family, MergeEdge, Boundary, Group, Coarsen, Config, ...) is the model: computable Gallina functions, each with a comment citing the file and lines it follows and what it leaves out.
* `SpecX.v` holds the vocabulary of the statements. It uses the record types of the model and elementary list or number notions, not the functions being verified.
* `*Proofs.v` holds lemmas.
* `Props*.v` holds the theorems `Cnn_...`, each followed by `Print Assumptions` and, next to it, an `Example` showing a concrete case that meets its hypotheses.
* `_refuted` theorems state that a claim fails on the modelled code and give a witness; these are findings. `_partial` theorems prove a named part of a property; the note says what is missing.

## Conventions

* **Build modelled.** The one made by `make distribution` (makefile 24-30): the checks compiled under `RSVS_DEBUG`, `SAFE_ACCESS`, `SAFE_ALGO` are absent. The default makefiles define these macros; there some of the out-of-range reads reported below become exceptions. `RSVS_ACCESS_DEVELOPMENT_PARAMETERS` is a parameter of the configuration model.
* **Outcomes.** `Ok v`, `Throw` (an exception), `UB` (undefined behaviour: out-of-range access, dereferenced end iterator, dangling pointer, conversion out of range) and `OutOfFuel` (fuelled recursion did not end; theorems show it is not reached, or that no fuel suffices).
* **Integers** are `Z`. Overflow is modelled where the property is about it (C09, C26, C52).
* **Doubles** are modelled in the way each property needs:
  * rationals `Q` and IEEE binary64 (`SpecFloat`), through one record of operations, for snake motion (`Num.v`): a theorem names the instance;
  * Flocq binary32 and binary64 for the quotients of the block grid (`FloatQuot.v`);
  * real numbers for geometry and derivatives (`Geom.v`, `Boundary.v`, `Group.v`, `Coarsen.v`, `RsvsMath.v`, `Calc.v`), with IEEE infinities and NaN added where a division by zero can happen (`ext`);
  * sign and real magnitude in the binary64 format of Flocq for files (`Codec.v`), correctly rounded as glibc does;
  * a real, an infinity or NaN for the step of the optimisation (`Sqp.v`), without rounding;
  * a rational or "not finite" for configuration values (`Config.v`).
* **Hash tables** (`std::unordered_multimap`) are lists of pairs. Where the standard leaves the order of equal keys open, theorems quantify over every legal answer.
* **Sorting** with `std::sort` on integers is its unique result; where ties or comparison functions matter (C17, C40) theorems quantify over the outcomes or restrict to distinct keys.
* **Objects linked by pointers** (mesh families) are a map from addresses to contents.
* Console output, timing and logging are left out.

## Model, file by file

| Model file | Code |
| --- | --- |
| Containers.v | incl/arraystructures.hpp, arraystructures_incl.cpp, snakstruct_incl.cpp: ArrayStruct, ModiftrackArray, SnakStruct, HashedVector, HashedVectorSafe, HashedVectorPair, SparseMatrixTriplet, sort and unique |
| Mesh.v | src/grid/mesh.cpp: TightenConnectivity, SwitchIndex, RemoveIndex, TestConnectivity, TestConnectivityBiDir, ChangeIndices, MakeCompatible_inplace, Concatenate |
| Flood.v | mesh.cpp: SetBorders, ConnectedVertex, ConnectedVolumes, ForceCloseContainers |
| Order.v | mesh.cpp: OrderEdgeList, OrderList, vert and surf OrderEdges, OrderedVerts |
| Edit.v | mesh.cpp: GetOffBorderVert, RemoveSingularConnectors, Crop, EdgeFromVerts, SurfFromEdges, ReOrder, OrderMatchLists, ConnVertFromConnEdge |
| Voxel.v, FloatQuot.v | src/grid/voxel.cpp: BuildBlockGrid and its parts, position decoding |
| Geom.v | mesh.cpp, meshprocessing.cpp, warning.cpp: Scale, BoundingBox, LinearTransform, edge lengths, coordvec, planes, pseudo centroids, centres, layers, line/sphere, SignedLogScale |
| Snake.v, Num.v | src/snake/snake.cpp: snaxel motion, positions, time steps, flips, ordering and arrival on an edge, ReorderOnEdge, inside flags, ValidateDistance, smoothing limits |
| Codec.v, Fill.v | mesh and snake file writing and reading, LoadTargetFill |
| Family.v | mesh.cpp 878-1453: parents and children of meshes and the maps between them |
| Spawn.v | snakeengine.cpp 22-405: SpawnAtVertex with its helpers, SpawnArrivedSnaxels; snake.cpp: snake::Concatenate, MakeCompatible_inplace, VertIsIn, Flip on whole snakes |
| SpawnVerts.v | RSVSalgorithm.cpp 13-159: FindSpawnVerts, the first phase of SpawnRSVS (SetBorders, choice of vertices, growth, velocities) |
| RemoveSnake.v | RSVSalgorithm.cpp 194-296: RemoveSnakeInVolu |
| Contact.v | snakeengine.cpp 220-276: MergeAllContactVertices |
| StepLimit.v | snake.cpp 895-962, 2089-2101, 2128-2192: SetEdgeStepLimits, TakeSpawnStep |
| Tetgen.v | interfaces/tetgenrsvs.cpp 25-117, 249-288, 413-512, 1043-1158, 1320-1393, 1496-1560, 1587-1606: TET2MESH, SU2, Mesh2Tetgenio, RSVSGRIDS, the metrics, BoundaryFacesFromPoints |
| MeshTri.v | snake/triangulate.cpp 606-768: MeshTriangulation, without PrepareForUse; the coordinates of a new vertex are recorded as the index of the point they are taken from |
| Orient.v | grid/mesh.cpp 4948-5156, 3862-3868; snake/snake.cpp 2546-2608: OrientSurfaceVolume, OrientRelativeSurfaceVolume, FlipVolus; the geometric test is a parameter |
| OrientGeom.v | grid/mesh.cpp 4909-4943, 5010-5016: CalcPseudoNormalSurf and the geometric test of the mesh, over the reals; that of the snake is not modelled |
| SplitSurf.v | grid/mesh.cpp 3663-3806, 3917-3960: surf::OrderEdges, SplitSurface, mesh::OrderEdges, with the capacity of the vector of surfaces |
| Flatten.v | grid/meshprocessing.cpp 15-113: FlattenBoundaryFaces, TriangulateAllFaces; the comparison of coordinates is a parameter |
| Domain.v | grid/meshprocessing.cpp 432-555: DomInter, BuildDomain, BuildCutCellDomain, over R; PrepareForUse left out |
| Holes.v | grid/meshprocessing.cpp 115-180, 238-249, 256-282, 367-430: FindHolesInSnake, the hole coordinates of PrepareSnakeForCFD, GroupCloseSnaxels, FindVertexHole |
| Detect.v | snake/snakeengine.cpp 415-493, 591-641, 644-659, 785-795: SnaxEdgeConnecDetection, SnaxNoConnecDetection, the loop of CleanupSnakeConnec over their records without its calls of SwitchIndex, the loops that remove collapsed edges and edges with twice the same end without DeHashParent, and the loop that reads their records again |
| BoundBox.v | interfaces/tetgenrsvs.cpp 683-703: tetgen::output::GetBoundBox, over the rationals and the infinities; NaN left out |
| Removal.v | snake/snakeengine.cpp 721-742, 754-780, 804-819, 836-845: the lists of objects to remove in CleanupSnakeConnec, and the removal of surfaces without edges; the messages on std::cerr left out |
| MergeVolu.v | snake/snakeengine.cpp 1392-1441: ModifyMergVoluConnec |
| MergeEdge.v | snakeengine.cpp: IndentifyEdgeSameSurf |
| Boundary.v | mesh.cpp: splitting of surfaces and volumes along a box, border vertex placement |
| Group.v | meshprocessing.cpp: GroupCloseVertices; mesh.cpp: MergeGroupedVertices |
| Coarsen.v | src/grid/meshrefinement.cpp: CoarsenMesh, CartesianMapping |
| RsvsMath.v | src/rsvs/RSVSmath.cpp, RSVSmath_automatic.cpp: Volume, Volume2, Area, LengthEdge, SurfCentroid (value, Jacobian, Hessian), SetEnvironmentEpsilon |
| Calc.v | src/rsvs/RSVScalc.cpp, RSVScalc_core.cpp, RSVScalctools.cpp: PrepTriangulationCalc, CalculateTriangulation, CalcTriangle, CalcTriangleFD, CalcTriangleDirectVolume, the position derivatives, the assignment to dense and sparse matrices, ReturnVelocities |
| Sqp.v | incl/SQPstep.hpp, src/rsvs/RSVScalc_SQP.cpp, RSVScalc.cpp: ResizeLagrangianMultiplier, SQPstep, SQPstep_sparse, the sensitivities, ComputeSQPstep, ComputeSQPsens, CheckAndCompute, ReturnSensitivities, ReturnGradient, CalculateVelocities; Eigen's decompositions are oracles |
| Triangulate.v | src/snake/triangulate.cpp: TriangulateContainer, TriangulateSurface, TriangulateTriSurface, TriangulateMesh, TriangulateSnake, MaintainTriangulateSnake, CleanDynaTri, SetConnectivity, SetActiveStaticTri, BuildTriSurfGridSnakeIntersect and the Follow functions; src/rsvs/RSVScalc.cpp: CalculateMesh |
| Config.v | src/parameters.cpp, src/interfaces/rsvsjson.cpp: to_json, from_json, read, write, readflat, writeflat, updatefromstring, and the functions of nlohmann json they use |


**Not modelled** (no theorem says anything about it): the snake engine's merging drivers (snakeengine.cpp apart from spawning and the search above), the parts of triangulate.cpp and RSVScalc*.cpp not listed above, Eigen's decompositions, RSVSintegration.cpp and RSVSalgorithm.cpp except where cited, Polyscope, the parts of the tetgen interface not listed above, postprocessing (Tecplot) output, command line parsing, the calls AddBoundary and CropAtBoundary as a whole, SurfaceInternalLayers, VertexNormal, the text layer of JSON (printing and parsing), file system errors.

## Properties and theorems

* **C01** (proved) Index lookup is exact after any edit history. All histories of 13 operation kinds, every legal multimap answer.
  Theorems: `C01_contents`, `C01_find_exact`.
* **C02** (proved) Maximum index bounds every stored index. All histories.
  Theorems: `C02_max_index`.
* **C03** (partial) remove deletes exactly the requested elements and un-readies the container. Deletion is exact and checkready() is sound for all histories; the ready flag alone is refuted: remove() leaves it set with a stale table.
  Theorems: `C03_remove_exact`, `C03_checkready_partial`, `C03_ready_partial`, `C03_ready_after_remove_refuted`.
* **C04** (proved) Renumbering gives 1..n and lookups invert it. 
  Theorems: `C04_populate`.
* **C05** (partial) Parent lookup returns all and only the siblings. Proved for histories without the inherited assign/Init/read; refuted with them: PrepareForUse keeps a stale parent table.
  Theorems: `C05_parent_lookup_partial`, `C05_index_lookup`, `C05_stale_parent_after_read_refuted`.
* **C06** (partial) Removing one parent entry leaves the others. Proved for any set of distinct positions and every hash ordering; the repeated call is refuted (end iterator dereferenced).
  Theorems: `C06_dehash_partial`, `C06_member`, `C06_dehash_twice_refuted`.
* **C07** (partial) Modification tracking reports exactly what was touched. ReturnModifInd is exact; ReturnModifLog is refuted (it tests the index, not the flag).
  Theorems: `C07_modif_ind_partial`, `C07_modif_log_refuted`.
* **C08** (partial) Hashed vectors behave like the list they store. Exact after GenerateHash and pushes; refuted after a write through operator[], for a reused FindSubList table and for EraseKeyPair.
  Theorems: `C08_hashed_vector_partial`, `C08_stale_after_write_refuted`, `C08_find_sub_list`, `C08_find_sub_list_reused_refuted`, `C08_erase_key_pair_refuted`.
* **C09** (proved) Keyed accumulation is a finite map. Needs nRow*nCol <= 2^31; without it the int key overflows (refutation included).
  Theorems: `C09_accumulate`, `C09_keyed_pair`, `C09_large_matrix_refuted`.
* **C10** (proved) sort then unique yields the set of values. sort+unique and TightenConnectivity on vectors and on whole meshes; the number of sides of a border surface is not kept ({0,0} becomes {0}), see the refuted theorem.
  Theorems: `C10_sort_unique`, `C10_tighten_mesh`, `C10_tighten_two_sides_refuted`.
* **C11** (partial) Merging two meshes never aliases objects. proved when 0 is only a side of a surface or edge; a 0 in a vertex's edge list is renumbered into a real edge (refuted theorem).
  Theorems: `C11_merge`, `C11_zero_reference_refuted`.
* **C12** (partial) Replacing an index keeps connectivity two-way. types 3,4,5,6,7 in full; type 2 leaves one-way vertex references (refuted), type 1 needs edges with two different ends and vertices listing an edge once (refuted otherwise).
  Theorems: `C12_switch_volume`, `C12_switch_surface`, `C12_switch_edge_partial`, `C12_switch_edge_refuted`, `C12_switch_vertex_partial`, `C12_switch_vertex_refuted`, `C12_switch_vertex_scoped`, `C12_switch_volume_scoped`, `C12_switch_surface_scoped`.
* **C13** (partial) Removing an index removes every reference to it. proved for mutually connected meshes; refuted for one-way references.
  Theorems: `C13_remove_vertex`, `C13_remove_edge`, `C13_remove_surface`, `C13_remove_volume`, `C13_one_way_refuted`.
* **C14** (proved) Connectivity check is sound and complete. the returned count is 0 iff every reference is known (0 let through outside surface edge lists) and no vertex or surface has an empty edge list.
  Theorems: `C14_test_connectivity`.
* **C15** (partial) Two-way connectivity check reports one-way references. the returned value ignores one-way references (refuted); the printed one-way total is 0 iff all references are mutual.
  Theorems: `C15_bidir_refuted`, `C15_bidir_partial`.
* **C16** (proved) Border flags match the exterior. set_borders on every well connected mesh, 3D and 2D: the flags are exactly the stated ones, everything else is kept, and the result does not depend on the flags before. An edge that lists surface 0 in a mesh with volumes reads out of range (refuted outside well_connected).
  Theorems: `C16_borders_3d`, `C16_borders_2d`, `C16_borders_fresh`, `C16_edge_exterior_refuted`.
* **C17** (proved) Reordering is an isomorphism. ReOrder for every outcome of the four sorts (the comparison functions read coordinates, which are not modelled). A reference to a missing object becomes 0 (C17_dangling_refuted).
  Theorems: `C17_reorder`, `C17_isomorphic`, `C17_dangling_refuted`.
* **C18** (partial) Cropping leaves no dangling reference. Crop up to RemoveSingularConnectors is proved in full when the deletion reaches the exterior or no volume; the whole of Crop when nothing degenerate is left. The property as stated is false otherwise: C18_dangling_refuted, C18_orphan_surface_refuted, C18_border_edge_refuted. Missing: RemoveSingularConnectors on degenerate objects; the final PrepareForUse.
  Theorems: `C18_crop_core`, `C18_crop_partial`, `C18_dangling_refuted`, `C18_orphan_surface_refuted`, `C18_border_edge_refuted`.
* **C19** (proved) Vertex flood fill finds connected components. ConnectedVertex terminates without error and labels exactly the components of free vertices for every well connected mesh whose edges have two vertices. A wrong size throws. New labels may repeat labels preset by the caller (C19_label_clash_refuted).
  Theorems: `C19_connected_vertices`, `C19_size`, `C19_label_clash_refuted`.
* **C20** (proved) Volume flood fill finds connected regions. ConnectedVolumes likewise, with the surfaces marked in the boundary vector not crossed, for meshes whose surfaces have two sides.
  Theorems: `C20_connected_volumes`, `C20_size`.
* **C21** (partial) Edge ordering yields a cycle of the same edges. Ordered results are permutations with neighbours sharing a vertex (when open chains are errors), truncated ones are chains of distinct originals, and closed polygons are always walked completely, in the abstract and from a mesh. Three claims fail with witnesses: with errout=false an ordered result may have unrelated neighbours, with errout=true an open chain started at its end is accepted, and without the original list elements and pairs are mismatched. What follows truncation is C110.
  Theorems: `C21_ordered`, `C21_truncated`, `C21_open`, `C21_polygon`, `C21_open_chain_refuted`, `C21_closure_refuted`, `C21_sorting_refuted`, `C21_surface`, `C21_vertex`.
* **C22** (partial) Ordered vertices follow the ordered edges. OrderedVerts and ConnVertFromConnEdge on closed polygons with at least three edges. With two edges or one the result is wrong or undefined (C22_two_edges_refuted, C22_conn_one_refuted).
  Theorems: `C22_conn_vert`, `C22_conn_one_refuted`, `C22_ordered_verts`, `C22_from_edges`, `C22_two_edges_refuted`.
* **C23** (partial) Object search by connectivity is exact. Full statement for well connected meshes without exterior references on the two edges; a border edge of a two-dimensional mesh leads to undefined behaviour (C23_exterior_refuted).
  Theorems: `C23_edge_from_verts`, `C23_surf_from_edges`, `C23_exterior_refuted`, `C23_other_end`.
* **C24** (proved) Orientation comparison is antisymmetric. For duplicate-free cycles with at least three entries and neighbouring values; two entries and values that are not neighbours are refuted.
  Theorems: `C24_order_match`, `C24_compare`, `C24_missing`, `C24_two_refuted`, `C24_not_adjacent_refuted`.
* **C25** (partial) Block grid numbering is a bijection with mutual references. Proved for all positive dimensions when the quotients are exact, and with the single and double precision quotients the code uses up to 2^24 vertices plus one row: numbering, sizes, ranges, distinctness, mutual references, and every face's four edges are a closed polygon that OrderEdges orders. Refuted beyond: in a 300x300x300 grid a cell lists faces of another cell. OrientFaces and PrepareForUse's geometry are not included.
  Theorems: `C25_exact_quotients`, `C25_grid_partial`, `C25_dimension`, `C25_large_refuted`, `C25_faces_partial`.
* **C26** (partial) Block grid positions decode exactly. Double precision quotients decode every number of every box below 2^31 elements. Single precision (second index of cells and vertices) is proved up to number 2^24 minus the first dimension and refuted beyond (299,124,186 in a 300x300x300 grid decodes to 299,125,186).
  Theorems: `C26_double`, `C26_single_partial`, `C26_single_refuted`.
* **C27** (proved) Mesh files round-trip. C27_round_trip: for every mesh, reading the written file returns all indices, border flags and references and every number to within 1e-16 (exactly from 1/2 upwards); C27_text_stable: a second write gives the same characters; C27_exact: multiples of 2^-16 come back exactly. C27_small_refuted is the finding that the precision is absolute, so that distinct vertices can collapse. isordered is not in the file.
  Theorems: `C27_round_trip`, `C27_negative_count`, `C27_text_stable`, `C27_exact`, `C27_small_refuted`.
* **C28** (partial) Snake files preserve the snake. C28_partial: all integer fields and the connectivity come back, numbers to within 1e-6 only; C28_on_edge: a snaxel stays on its edge and in order; C28_text_stable. The full claim is false: C28_refuted (a snaxel inside its edge comes back at its end, on another snaxel), C28_inside_refuted (isMeshVertIn and isFlipped are not in the file).
  Theorems: `C28_partial`, `C28_text_stable`, `C28_on_edge`, `C28_refuted`, `C28_inside_refuted`.
* **C29** (proved) Scaling maps the mesh onto the requested box. In exact real arithmetic, for meshes with at least one vertex and limits with lower <= upper. C29_bounding_box gives the box, C29_scale the result of Scale, its transformation and the affine map in each direction.
  Theorems: `C29_bounding_box`, `C29_scale`.
* **C30** (partial) Edge lengths follow vertex moves. C30_partial: the length is the distance after any sequence of calls in which distance-changing transformations only happen while nothing is cached. C30_refuted: LinearTransform (and so Scale) after PrepareForUse leaves stale lengths. C30_planar_refuted: meshes of dimension 2 ignore z.
  Theorems: `C30_partial`, `C30_cached`, `C30_refuted`, `C30_planar_refuted`.
* **C31** (partial) Cached vector norm is correct. C31_partial holds for every sequence without negative factors on a current norm; C31_negative_refuted: mult(-1) makes the norm negative. C31_elements states what each call leaves in the vector.
  Theorems: `C31_partial`, `C31_elements`, `C31_entrywise`, `C31_negative_refuted`.
* **C32** (proved) Vector algebra identities. Real arithmetic, three components. The claim about the plane needs three points that are not on one line.
  Theorems: `C32_cross`, `C32_orientation`, `C32_plane`.
* **C33** (partial) Batch plane distance agrees with the single version. C33_partial covers no point, one point and wrong sizes. C33_refuted: for two points or more the list version always reads outside a vector.
  Theorems: `C33_partial`, `C33_refuted`.
* **C34** (partial) Snaxels stay on their edge. Exact arithmetic: both overloads keep every distance in [0,1] over any history of moves, velocity changes and flips, respect the step limit and are exact when nothing is limited. Binary64: the result is in [0,1] or NaN, and NaN is reached (refuted witness). The limits are an input here; SetEdgeStepLimits is the subject of C101 and C102.
  Theorems: `C34_on_edge`, `C34_history`, `C34_float`, `C34_nan_refuted`.
* **C35** (partial) Snake vertices lie on mesh edges. Exact arithmetic: point at fraction d, end points at 0 and 1, bounding box, other vertices untouched. With doubles the end point can be missed (refuted witness).
  Theorems: `C35_on_edge`, `C35_float_end_refuted`.
* **C36** (partial) Time steps prevent crossing on an edge. Proved: the computation succeeds, steps lie in [0, dt], two snaxels alone on an edge get equal steps, and any common step up to the computed ones lets no pair cross. Refuted: with three snaxels on an edge the per-snaxel steps differ and two snaxels cross.
  Theorems: `C36_no_crossing_partial`, `C36_crossing_refuted`.
* **C37** (partial) Shape-conserving time step limits every snaxel. Proved for positive velocities. Refuted for negative ones: the code takes the absolute value of a comparison.
  Theorems: `C37_forward_partial`, `C37_backward_refuted`.
* **C38** (proved) Flip is a position-preserving involution. Exact arithmetic. For doubles a witness shows that two flips can lose a small distance.
  Theorems: `C38_flip_twice`, `C38_flip_place`, `C38_float_refuted`.
* **C39** (proved) Inside status of merged snakes. Union or intersection of the insides, chosen as the code does; undefined when the second snake has fewer flags.
  Theorems: `C39_inside`.
* **C40** (partial) Order on edge is the rank along the edge. Proved when at most one edge carries several snaxels and their positions differ. Refuted for a second such edge (stale hash table) and for ties.
  Theorems: `C40_one_crowded_edge_partial`, `C40_second_edge_refuted`, `C40_tie_refuted`.
* **C41** (partial) Arrival detection covers both ends. Exact description of what is reported, and symmetry of collisions. Refuted: a snaxel that travels from the higher-numbered vertex and arrives is missed when the edge has other snaxels.
  Theorems: `C41_reports_partial`, `C41_backward_refuted`.
* **C42** (partial) Internal vertices are those enclosed by the snake. Termination, every marked vertex is enclosed, every origin is marked. Refuted: enclosed vertices further away are left unmarked because the search stops early.
  Theorems: `C42_sound_partial`, `C42_early_stop_refuted`.
* **C43** (partial) Smoothing step respects its limits. Proved for limits in the intended order; the limits of the code are inverted for steps below one, for which the result is shown to be always one of the limits (refuted witness).
  Theorems: `C43_limits_inverted`, `C43_between_partial`, `C43_inverted`, `C43_unchanged_refuted`, `C43_not_finite`.
* **C44** (partial) Mesh family links are symmetric. Proved with multiplicity for all histories of construction, linking and destruction in which AddChild with a connection list does not throw; destruction never meets a dangling pointer. Alignment of the connection lists is proved while only childless meshes are destroyed. Refuted otherwise: RemoveParent keeps parentconn (C44_aligned_refuted), AddChild with a list throws after the child is stored (C44_throw_refuted), RemoveFromFamily and copies leave one-sided links (C44_leave_refuted, C44_copy_refuted), AddParent without a list is not counted (C44_count_refuted), clear erases while iterating (C44_clear_refuted).
  Theorems: `C44_partial`, `C44_no_dangling`, `C44_aligned_partial`, `C44_count_partial`, `C44_aligned_refuted`, `C44_throw_refuted`, `C44_leave_refuted`, `C44_copy_refuted`, `C44_count_refuted`, `C44_clear_refuted`.
* **C45** (proved) Parent boundary detection. For meshes whose connection lists are in order (the condition C44 shows can be lost): SurfInParent gives the first parent that separates the sides, its list form gives all positions, SurfOnParentBound lists exactly the surfaces at the bound.
  Theorems: `C45_first`, `C45_positions`, `C45_bound`.
* **C46** (partial) Values return to the parent cells they came from. Proved for families whose connection lists are in order and whose parents are distinct objects. Refuted without: missing cells get a neighbour's position (C46_missing_refuted), the values vector is not cleared (C46_values_refuted), positions are wrong after a parent is destroyed (C46_destroyed_refuted).
  Theorems: `C46_numbering_partial`, `C46_write`, `C46_partial`, `C46_self`, `C46_missing_refuted`, `C46_values_refuted`, `C46_destroyed_refuted`, `C46_lookup`, `C46_no_parent`.
* **C47** (partial) Coarsening keeps a valid mesh. 2D: full statement for every grouping (idempotent mapping). 3D: under the reading that an element erased in place can still be read (C47_three_dimensions_partial); C47_out_of_range_refuted shows line 111 always reads past the end when two touching cells merge. Mappings that pass the code's own test but are not idempotent break the mesh (C47_exchange_refuted, C47_chain_refuted). PrepareForUse at the end is left out.
  Theorems: `C47_two_dimensions`, `C47_three_dimensions_partial`, `C47_out_of_range_refuted`, `C47_no_inner_surface`, `C47_bad_mapping`, `C47_exchange_refuted`, `C47_chain_refuted`.
* **C48** (partial) Target fill reading cycles through the file. C48_partial: the claim for files that end right after their last number. False otherwise: C48_trailing (with white space at the end the last number counts twice), C48_refuted (witness), C48_blank (a file without numbers gives every cell an uninitialised value). Malformed numbers are not covered.
  Theorems: `C48_partial`, `C48_trailing`, `C48_dimension`, `C48_refuted`, `C48_blank`.
* **C49** (partial) Point-in-cell sample lies inside. C49_layers proves the claim about internal layers. C49_third and C49_inside_refuted: CoordInVolume returns a third of the average, which is outside the cell.
  Theorems: `C49_layers`, `C49_negative_layers`, `C49_third`, `C49_inside_refuted`.
* **C50** (partial) Mean edge length at a vertex. C50_min_max_partial: minimum and maximum are right. C50_mean_refuted: the mean is always infinite.
  Theorems: `C50_min_max_partial`, `C50_mean_refuted`.
* **C51** (partial) Off-border search terminates. The property is false: the overload for non-const meshes recurses for ever (C51_never_returns_refuted). The const overload returns for every well connected mesh, with the exact result.
  Theorems: `C51_never_returns_refuted`, `C51_const_3d`, `C51_const_2d`.
* **C52** (partial) Configuration round-trips and partial configurations override only what they name. Proved: a written configuration read into any parameters (nested, flat, or a flat file through read) gives the written values with the three variable-length lists written over the old ones (C52_round_trip), hence reproduces it when its lists are at least as long (C52_reproduces); a file naming values with their types changes exactly these (C52_partial_file). Refuted: a shorter list keeps the end of the old one, an empty list or a number that is not finite makes the read throw. Text printing and parsing and the state left by a failed read are not modelled; files with unknown keys are not covered.
  Theorems: `C52_round_trip`, `C52_reproduces`, `C52_shorter_list_refuted`, `C52_empty_list_refuted`, `C52_not_finite_refuted`, `C52_partial_file`.
* **C53** (partial) Snake edge merge search stays in range. Refuted as stated: the search reads past the count vector exactly when no surface of the edge is shared with another snake edge of the same parent (C53_out_of_range, witness in C53_refuted). C53_partial: otherwise it stops at the first shared surface and lists exactly the edges of that parent on it.
  Theorems: `C53_out_of_range`, `C53_partial`, `C53_refuted`.
* **C54** (partial) Closed containers partition the snake. Containers are numbered 1..n, hold what surrounds the vertices of their block, and every surface with connected vertices (every edge in 2D) has its block as first side. Lists hold duplicates and an annular surface ends with a one-way reference (both refuted with witnesses).
  Theorems: `C54_close_3d`, `C54_close_2d`, `C54_duplicates_refuted`, `C54_two_loops_refuted`.
* **C55** (proved) Vertex grouping merges exactly the close vertices. Over the reals, for meshes whose vertices and edges refer to each other. MergeGroupedVertices is proved for edges with two distinct ends; edges between merged vertices become loops, as in the code.
  Theorems: `C55_groups`, `C55_merge`.
* **C56** (partial) Line-sphere intersection solves the sphere equation. C56_partial covers every case except a discriminant strictly between 0 and DBL_EPSILON, where C56_refuted shows the parameters are not on the sphere. Direction different from zero.
  Theorems: `C56_partial`, `C56_centre`, `C56_refuted`.
* **C57** (proved) Second derivatives combine by the chain rule. Stated as the first and second order terms of the composition of two quadratic functions, all sizes. C57_symmetric: symmetry is kept.
  Theorems: `C57_chain`, `C57_symmetric`.
* **C58** (proved) Border splitting partitions the references. C58_unknown: a reference to nothing makes the split throw (after the caller's list was cleared, which the model does not show).
  Theorems: `C58_surface`, `C58_volume`, `C58_unknown`.
* **C59** (partial) Newly spawned snaxels are slotted into the order of their edge. Proved when new snaxels are at the ends of their edges with at most one at each end. Refuted for two at one end, for a new snaxel inside an edge, and for gaps left by deletions.
  Theorems: `C59_new_arrivals_partial`, `C59_same_end_refuted`, `C59_inside_refuted`, `C59_gap_refuted`.
* **C60** (proved) ValidateDistance keeps a snaxel between its neighbours. Exact arithmetic, for siblings that are themselves in order.
  Theorems: `C60_validate`, `C60_rejected`.
* **C61** (partial) Block grid vertices are distinct points one cell apart. Coordinates are taken as exact quotients (the final double division is not rounded); grids of up to 2^24 vertices plus one row, flat grids included.
  Theorems: `C61_coordinates_partial`.
* **C62** (partial) Cell centre lies in the cell. C62_doubled: the result is twice a point of the hull. C62_centre_refuted: it is outside the cell in general.
  Theorems: `C62_doubled`, `C62_centre_refuted`.
* **C63** (partial) Pseudo centroids are weighted averages. C63_surface proves the claim for surfaces, C63_volume_hull that the cell point is in the hull. C63_small_cells and C63_volume_refuted: the weights are perimeters rounded down, so fine cells get the centroid of their first face.
  Theorems: `C63_surface`, `C63_volume_hull`, `C63_small_cells`, `C63_volume_refuted`.
* **C64** (partial) Signed logarithmic scale keeps order. C64_partial: zero, sign and order above DBL_EPSILON. C64_order_refuted: the sign is reversed between 1e-16 and DBL_EPSILON.
  Theorems: `C64_partial`, `C64_order_refuted`.
* **C65** (partial) Distance to a plane is a distance. C65_scaled_distance: the value is the distance times the length of the normal. C65_distance_refuted: it is not the distance.
  Theorems: `C65_scaled_distance`, `C65_distance_refuted`.
* **C66** (partial) Parent boundary detection in two dimensions. False of the code: line 1379 passes an edge index to SurfInParent. C66_never shows that no inner edge of a mesh without volumes is ever listed; C66_refuted is a concrete case.
  Theorems: `C66_never`, `C66_refuted`, `C66_listed`.
* **C67** (proved) Inner edges and vertices found when cutting along a box. The result of FindEdgeInFromSurfOut keeps repeats, as the code does.
  Theorems: `C67_edges`, `C67_verts`.
* **C68** (proved) New border vertices lie where the edge leaves the box. Over the reals with IEEE infinities for division by zero.
  Theorems: `C68_exit_point`.
* **C69** (partial) CartesianMapping groups cells by the box their centre lies in. Proved for every well connected mesh with a positive extent in each direction, real coordinates; C69_flat_refuted: without extent in a direction (every planar 2D mesh) the function converts 0/0 to int. Rounding of the box coordinate is not modelled.
  Theorems: `C69_volumes`, `C69_surfaces`, `C69_flat_refuted`, `C69_then_coarsen`.
* **C70** (partial) Settings given as key/value strings change exactly the named values. Proved for every list of strings naming known values with texts of the right type, mixed with strings without separator (C70_assigned). Refuted: some unknown keys make the update throw instead of being counted, and a separator of two characters leaves its second character in the value.
  Theorems: `C70_assigned`, `C70_unknown_key_refuted`, `C70_long_separator_refuted`, `C70_failures`.
* **C71** (proved) Volumes and their derivatives. All histories of Assign, AssignOne, Calc, CalcFD and SetEnvironmentEpsilon on one object; real numbers instead of doubles. C71_finite_difference: CalcFD gives the same Jacobian, the volume being affine in each coordinate. C71_closed_surface: translation invariance for any closed surface.
  Theorems: `C71_volume`, `C71_defined`, `C71_finite_difference`, `C71_closed_surface`, `C71_tetrahedron`.
* **C72** (partial) Areas and their derivatives. The value is the area (C72_area). Jacobian and Hessian are those of sqrt(4 area^2 + eps)/2 with the epsilon last set, so they are not the derivatives of the value (C72_gradient_refuted, with the initial 1e-10); C72_close bounds the relative error of the Jacobian by eps/(8 area^2), C72_degenerate gives zero for collinear points. Real numbers instead of doubles.
  Theorems: `C72_area`, `C72_always`, `C72_close`, `C72_degenerate`, `C72_gradient_refuted`.
* **C73** (proved) Lengths and their derivatives. For distinct points; for equal points the code divides by zero. Real numbers instead of doubles.
  Theorems: `C73_length`.
* **C74** (proved) Volumes over snaxels that slide along edges. Includes the two entries of the Hessian that are never written: they stay zero in every history. Real numbers instead of doubles.
  Theorems: `C74_volume`.
* **C75** (partial) Centre of an outline and its gradient. Value exact for outlines of length 1e-15 or more, zero below; gradient within an explicit bound in the smoothing constants (zero error when they are zero). Missing: CalcFD breaks the claim for later calls (C75_stale_refuted, C75_fd_value_refuted). Real numbers instead of doubles.
  Theorems: `C75_value`, `C75_tiny`, `C75_jacobian`, `C75_differentiable`, `C75_defined`, `C75_stale_refuted`, `C75_fd_value_refuted`.
* **C76** (partial) Second derivatives of the centre of an outline. Refuted: in every history all mixed second derivatives of the second coordinate are zero, while the true value for the unit square is 1/32. Missing: the blocks for a single corner are not compared with the true derivatives.
  Theorems: `C76_cross_terms`, `C76_refuted`.
* **C77** (partial) Smoothing constants reach every formula. Refuted: Calc never depends on the constants set. The theorem C77_centroid_ignored holds for all constants and objects. C77_last: after any history the constants are those of the last SetEnvironmentEpsilon, field by field.
  Theorems: `C77_centroid_ignored`, `C77_refuted`, `C77_last`.
* **C78** (proved) The variables of the optimisation are the snaxels that can move. For all snakes. Connectivity is given as the ends of the edges of each snaxel.
  Theorems: `C78_variables`, `C78_fresh`, `C78_velocities`.
* **C79** (proved) The constraint vector is the volume in each cell and its Jacobian the derivative of it. Over the reals, for all triangulations. The error is zero for triangles without a moving centre and dense matrices (C79_exact); otherwise it is that of the centroid slopes (C75) plus DBL_EPSILON per value left out of a sparse matrix. Surfaces whose centre is differentiated have at least four corners, no zero side and an outline of at least 1e-15.
  Theorems: `C79_values`, `C79_gradient`, `C79_exact`.
* **C80** (proved) The objective is the area of the snake and its gradient the derivative of it. The gradient is that of the area shifted by the smoothing constant, not of the objective value itself; the error is as in C79.
  Theorems: `C80_gradient`.
* **C81** (partial) The Hessians are the second derivatives. Proved when no surface with an added centre moves. Missing: curvature of the centres, whose mixed blocks are wrong (C76).
  Theorems: `C81_constraints_partial`, `C81_objective_partial`.
* **C82** (partial) Every derivative method computes the same problem, and it is always defined. Methods 0 and 1 agree (the objective Hessian for dense matrices), the active sets are exact, and the calculation is defined for good environments. Refuted for method 2, which is undefined for every triangle.
  Theorems: `C82_methods`, `C82_direct_refuted`, `C82_active`, `C82_defined`.
* **C83** (proved) Multipliers are brought within the limit. Limits at or above zero; C83_negative_refuted shows what a negative limit does.
  Theorems: `C83_limited`, `C83_unlimited`, `C83_negative_refuted`.
* **C84** (proved) The step solves the equations of the optimisation problem. Decompositions are oracles that solve the systems suited to them, in exact arithmetic; C84_step is dense, C84_sparse sparse maths; C84_limit_refuted shows the loss when a multiplier is beyond the limit.
  Theorems: `C84_step`, `C84_sparse`, `C84_minimal`, `C84_limit_refuted`.
* **C85** (proved) The step is always defined, changes only active entries, and falls back when a decomposition fails. Dense maths; C85_sparse_refuted is the finding for sparse maths.
  Theorems: `C85_defined`, `C85_frame`, `C85_fallback`, `C85_constraint_only`, `C85_sparse_refuted`.
* **C86** (proved) Sensitivities solve the linearised problem. For runs that ended with well-posed equations; the two refuted theorems are findings.
  Theorems: `C86_sensitivities`, `C86_change`, `C86_cholesky_refuted`, `C86_unit_refuted`.
* **C87** (proved) Gradients and sensitivities are handed to the snaxels they belong to. ReturnSensitivities after sensitivities were computed; the refuted theorems are findings.
  Theorems: `C87_gradient`, `C87_sensitivities`, `C87_negative_refuted`, `C87_absent_refuted`.
* **C88** (proved) The velocities given to the snaxels drive the volumes to their targets. Plain triangles, whose points are snaxels, mesh vertices or fixed points; dense maths; decompositions are oracles as in C84.
  Theorems: `C88_velocities`, `C88_report`.
* **C89** (proved) Triangulating surfaces adds one triangle per side, with fresh numbers. Arrays are lists with their largest index; the surfaces are given as closed polygons with distinct corners. C89_mesh_all records that without parents, and in two dimensions, TriangulateMesh takes every surface.
  Theorems: `C89_surfaces`, `C89_parts`, `C89_refuses`, `C89_type`, `C89_mesh`, `C89_mesh_all`.
* **C90** (proved) The volumes of the cells of a mesh. Real arithmetic. The calculator is one without variables (dvMap empty), as a new one is. C90_translation needs the directed sides of the surfaces of the cell to cancel.
  Theorems: `C90_value`, `C90_whole`, `C90_closed`, `C90_translation`.
* **C91** (proved) The triangles of the mesh that count as the snake's. The decision by first corners (C91_first); with equal corners on each uncrossed surface it is the expected set (C91_active).
  Theorems: `C91_first`, `C91_active`, `C91_refused`.
* **C92** (proved) Going back from a snaxel reaches the first thing behind it. FollowSnaxelDirection for every snake whose snaxels have different indices.
  Theorems: `C92_back`.
* **C93** (partial) Leaving a vertex reaches the first thing on the other edge. C93_next_partial covers an edge with at most one snaxel. C93_both_ends shows that with two snaxels of different ranks the same one is given from both ends, and C93_refuted gives a case where it is not the first one met; so the full claim is false of the code.
  Theorems: `C93_next_partial`, `C93_both_ends`, `C93_refuted`.
* **C94** (partial) The parts of a surface inside the snake are found, each once. C94_parts assumes that no edge of the surface carries two snaxels (see C93), that one edge of the snake leaves each snaxel in the surface, and that snaxels leave the vertices inside. C94_ends has no hypothesis on the mesh or the snake; its hypothesis is only the fuel.
  Theorems: `C94_parts`, `C94_ends`.
* **C95** (proved) After each change of the snake its triangles are those of its present surfaces. C95_maintained: one call, for any marked set of surfaces, gives exactly the triangles of the present surfaces and nothing of the ones gone; C95_history: over any sequence of changes. Both ask that changed surfaces are marked; C95_refuted shows that SwitchIndex on a vertex does not mark them and stale triangles stay.
  Theorems: `C95_maintained`, `C95_history`, `C95_refuted`.
* **C96** (partial) Growing a snake around interior vertices gives closed surfaces that enclose exactly those vertices. Proved for meshes with cells (3D) and interior vertices: C96_spawn for one growth on any snake, C96_history for any sequence of distinct vertices. Refuted at the border (undefined read), for a second growth around the same vertex, and where a surface has three edges at a vertex (C96_three_refuted, undefined read). The two-dimensional branch (SpawnAtVertexSurf2D) is modelled but has no theorem.
  Theorems: `C96_three_refuted`, `C96_spawn`, `C96_history`, `C96_border_refuted`, `C96_twice_refuted`.
* **C97** (partial) Snaxels that arrive at a vertex make the snake grow around it once, those at the border stop. C97_arrived describes the result for every list of impacts in 3D, with the vertices inside in all four cases; the case in which every inside vertex is reached going back contradicts the expectation (C97_collapse_refuted). PrepareForUse at the end is not modelled.
  Theorems: `C97_arrived`, `C97_collapse_refuted`.
* **C98** (proved) The starting snake encloses exactly the vertices at the front and next to the outside. In three dimensions. The mesh after SetBorders is taken to be cellular: each vertex that is not a corner of an outer surface is interior in the sense of C96 and each edge has two ends; the ball example meets this. The rest of SpawnRSVS (time step, merging of meeting snaxels, removal of the outer or inner snake, second growth) is not modelled.
  Theorems: `C98_choice`, `C98_refused`, `C98_start`.
* **C99** (partial) Removing the snake in given cells takes whole parts away and leaves a closed snake. For snakes of three dimensions. Each surface of the snake is taken to have its corners in one part; without this the remaining snake need not be closed (C99_annulus_refuted). The flags of inside vertices are as sound as those of C42, which is partial: the search stops once every snaxel has been met.
  Theorems: `C99_parts`, `C99_annulus_refuted`.
* **C100** (partial) Merging snaxels in contact takes one of each pair and moves its edges to the other. C100_merge gives the whole effect for contacts in which no snaxel touches two others, and C100_detected shows that the contacts reported are of that kind when an edge carries at most two snaxels. With three snaxels at one point the claim is false (C100_three_refuted).
  Theorems: `C100_merge`, `C100_detected`, `C100_three_refuted`.
* **C101** (proved) The step limits of edges are positive, at most 1, and bound motion by the shortest edge of the parent cell. C101_limits, C101_motion; C101_border_refuted records that the comment of the function claims more. Numbers are exact (Q).
  Theorems: `C101_limits`, `C101_motion`, `C101_border_refuted`.
* **C102** (partial) The spawn step takes each new snaxel the same distance away from its vertex. C102_step_partial: snaxels alone on their edge. For edges with several snaxels the claim is false (C102_facing_refuted). Numbers are exact (Q).
  Theorems: `C102_step_partial`, `C102_facing_refuted`.
* **C103** (proved) A tetrahedral mesh read back from tetgen is consistent and has exactly tetgen's connections. For all outputs of tetgen whose tables are in range. PrepareForUse after the construction is not part of the theorem; numbers are copied, whatever their type.
  Theorems: `C103_mesh`, `C103_no_faces`.
* **C104** (proved) Two meshes are handed to tetgen whole: all points, markers and facets, without a write outside an array. For consistent meshes with polygonal surfaces; the order of the edges of a surface is what OrderEdges gives (C21, C22). Holes and regions of tetgenio are not modelled.
  Theorems: `C104_input`.
* **C105** (partial) Metrics are written for exactly the points and facets asked for. The full claim, that every point gets its own length, is refuted (C105_each_refuted, C105_grids_throw, C105_grids_first). What is written and what stays is proved for all ranges.
  Theorems: `C105_written`, `C105_range`, `C105_each_refuted`, `C105_grids_throw`, `C105_grids_first`, `C105_facets`.
* **C106** (proved) A face is on the boundary exactly when all its corners are. For consistent meshes with polygonal surfaces; an unknown point is undefined behaviour (C106_unknown).
  Theorems: `C106_flags`, `C106_unknown`.
* **C107** (proved) An SU2 file has the numbers it announces and every marked face once. For all outputs of tetgen with tables of the announced size. How numbers are printed is not modelled.
  Theorems: `C107_file`.
* **C108** (proved) Splitting a mesh into triangles keeps it consistent and replaces exactly the surfaces that have a centre. The mesh is prepared (orders and hash tables are those of C01 and C13); the final PrepareForUse is left out. Coordinates are recorded as the index of the point of trivert they are taken from.
  Theorems: `C108_split`, `C108_triangles`.
* **C109** (partial) Orienting the faces of a mesh gives sides that agree around every cell. The relative orientation is proved for every mesh and every answer of the geometric test, and the direction is right whenever the test is. The last sentence is refuted for the test in the code (C109_direction_refuted): it uses twice the centre of the cell. The test of the snake is covered by the parameter only.
  Theorems: `C109_relative`, `C109_true_sides`, `C109_direction_refuted`.
* **C110** (partial) Ordering the surfaces of a mesh leaves each one a single closed polygon. C110_order holds for every capacity of at least two when no surface has more than two polygons; C110_surface holds for any number of polygons when there is room for all of them. The rest of the claim is false of the code, with witnesses: three polygons and one spare slot are undefined behaviour, the new surface is listed twice in its volumes, only the first of several new surfaces is returned, and a single surface with capacity one is left unsplit.
  Theorems: `C110_order`, `C110_surface`, `C110_dangling_refuted`, `C110_returned_refuted`, `C110_twice_refuted`, `C110_one_refuted`.
* **C111** (partial) Splitting the faces of a mesh in place gives a consistent mesh of triangles or of flat border faces. Proved for both functions, except for what is refuted: the border marks of the new edges and vertices (C111_border_refuted) and the order of the two cells beside a surface (C111_sides_refuted). The surfaces are polygons with distinct corners, listed in order. The positions of the new vertices are not modelled.
  Theorems: `C111_all`, `C111_flatten`, `C111_border_refuted`, `C111_sides_refuted`.
* **C112** (partial) The domain given to tetgen is a consistent mesh of nested boxes from the inner to the outer bounds. C112_domain: consistency, numbers of objects, corners of every box and the announced vertices, for all bounds with lower < upper and all n >= 1; C112_nested: the boxes from the second on grow and the last is the outer one. Refuted: the first box in the second (C112_nested_refuted); the indices double at each step (C112_indices); the list is not cleared when n = 0 (C112_none).
  Theorems: `C112_domain`, `C112_nested`, `C112_nested_refuted`, `C112_none`, `C112_indices`.
* **C113** (partial) Every body of a snake is emptied from a point that lies inside it. The choice for each body (C113_bodies), the marks (C113_holes), the vertices in doubt and the coordinates are proved. The continuation through vertices in doubt is proved for what the code reads (C113_search), which is the edges of the mesh only where every index of an edge is its position (C113_positions); otherwise it is refuted: it leaves the edges, misses vertices, and reads past the end of the array.
  Theorems: `C113_search`, `C113_direct`, `C113_positions`, `C113_joined_refuted`, `C113_missed_refuted`, `C113_holes`, `C113_bodies`, `C113_bounds_refuted`, `C113_every_body_refuted`, `C113_repeat_refuted`, `C113_near`, `C113_coords`.
* **C114** (proved) Collapsed edges and loose snaxels are all detected and the merges planned do not conflict. The calls of SwitchIndex between the records are left out: they change the mesh, not the records (see C12 and C100).
  Theorems: `C114_edges`, `C114_loose`, `C114_settled`, `C114_removals`.
* **C115** (proved) Collapsed edges and edges with twice the same end are all removed from the snake and nothing else is. DeHashParent of the snaxedges is left out: it changes the hash of the snaxedges only. The merges between the two loops and the reading of the records again are not part of the claim; C115_collapsed_refuted and C115_again_refuted show that this reading is outside the lists of the edges removed.
  Theorems: `C115_loops`, `C115_again_refuted`, `C115_recorded`, `C115_collapsed_refuted`.
* **C116** (proved) The box around the points returned by tetgen is the tightest one. Coordinates are rationals or infinities; they are only compared and copied. NaN is left out.
  Theorems: `C116_box`.
* **C117** (proved) The lists of objects that a clean-up of a snake removes are complete, and volumes lose the faces without edges only. The merges between these passes, ModifyMergVoluConnec and the removals from the arrays themselves are not part of the claim.
  Theorems: `C117_lists`, `C117_bare`.
* **C118** (proved) Bodies of a snake are merged exactly when chains of removed vertices join them. scopeind, which SwitchIndex does not read here, is left empty.
  Theorems: `C118_merge`.

## Findings

Behaviour of the code that contradicts what a caller would expect. Each is a `_refuted` theorem or is stated by the theorem named.

Containers
* `remove()` leaves the ready flag set with a stale hash table (C03). `PrepareForUse` keeps a stale parent table after the inherited `assign`, `Init` or `read` (C05). `DeHashParent` twice dereferences an end iterator (C06). `ReturnModifLog` tests the index instead of the flag (C07). Hashed vectors are stale after a write through `operator[]`; `EraseKeyPair` and a reused `FindSubList` table give wrong answers (C08). The key of a sparse matrix entry overflows `int` from nRow*nCol > 2^31 (C09). Not proved, seen while reading: `disp(iStart,iEnd)` in arraystructures ignores its bounds (line 498).

Mesh connectivity
* Tightening turns the two sides {0,0} of a border surface into {0} (C10); 2D block grids are affected. Merging meshes renumbers a 0 in a vertex's edge list into a real edge (C11). `SwitchIndex` type 2 leaves one-way references (C12), and it does not invalidate cached edge lengths. `TestConnectivityBiDir` returns a value that ignores one-way references (C15). `ReOrder` turns dangling references into references to the exterior (C17). `Crop` can leave references to a deleted volume, keeps orphan surfaces with sides {0,0}, and looks up surface 0 on border edges of 2D meshes (C18); `SurfFromEdges` does the same (C23). Labels of `ConnectedVertex` may repeat labels preset by the caller (C19).
* Edge ordering: an open chain started at its end is accepted, results without error output may have unrelated neighbours, and without the original list elements are mismatched (C21). `OrderedVerts` is wrong for two edges and `ConnVertFromConnEdge` is undefined for one (C22). `OrderMatchLists` is ambiguous for two entries and invents a direction for values that are not neighbours (C24). The non-const `GetOffBorderVert` never returns (C51). `ForceCloseContainers` produces duplicates and one-way references on annular surfaces (C54).
* Block grids: from 2^24 elements the single precision quotients are wrong and cells list faces of other cells (C25, C26).
* `CoarsenMesh` reads past the end of a vector whenever two touching cells merge in 3D (line 111), and mappings that pass its own test but are not idempotent break the mesh (C47). `CartesianMapping` converts 0/0 to `int` for every planar mesh (C69).
* Border splitting clears the caller's list before throwing on an unknown index (C58).

Geometry
* `coordvec::mult` with a negative factor makes the cached norm negative (C31). `LinearTransform` and `Scale` leave stale cached edge lengths (C30); lengths ignore the third direction in 2D meshes (C30). `VerticesDistanceToPlane` reads out of range for two points or more (C33). `VertexDistanceToPlane` is the distance times the length of the normal (C65). `PseudoCentroid` of a volume weighs faces by perimeters rounded down to `int` (C63). `CalcCentreVolu` is doubled (C62). `CoordInVolume` is a third of the average (C49). The mean edge length at a vertex is always infinite (C50). `IntersectLineSphere` returns points off the sphere near tangency (C56). `SignedLogScale` reverses the sign between 1e-16 and DBL_EPSILON (C64). `LinearTransformFamily` transforms a relative reachable along two ways twice (seen, not modelled). `meshhelp::ProjectRay` always returns -infinity (seen, not modelled).

Snake
* A NaN can be reached by a snaxel's distance, and end points can be missed by one rounding (C34, C35, C38). Per-snaxel time steps let two of three snaxels on an edge cross (C36). The shape-conserving step ignores negative velocities, because the absolute value is taken of a comparison (snake.cpp:2295, C37). `OrderOnEdge` uses a stale table for the second crowded edge (C40). Arrivals of snaxels travelling backwards are missed (C41). `AssignInternalVerts` stops early and leaves enclosed vertices unmarked (C42). The limits of the smoothing step are inverted (C43). `ReorderOnEdge` gives duplicates at one end, leaves -1 inside, and gaps hide collisions (C59). The edge merge search reads past its count vector when no surface is shared (C53).
* `MergeAllContactVertices`, given all the contacts at once (SpawnRSVS, SpawnSnakeAndMove), merges only two of three snaxels that meet at a point: the contact of the third is marked as done without a merge (C100). MergeCleanSnake passes one pair at a time and is not affected.
* `snax::TakeSpawnStep` compares the positions of snaxels on one edge without regard to their direction. When two snaxels are spawned from the two ends of an edge, each sees the other at its own vertex, and both are put back to d = 0: the step is undone (C102).
* `SetEdgeStepLimits` averages over the parent cells of an edge, so edges on the border of two design variables have a different limit in space from those inside, although the comment promises the same real limit inside a design variable (C101).
* `tetgen::io_safe::SpecifyTetPointMetric` gives the same metrics to all points of a range. `RSVSGRIDS` and `RSVS2CFD` pass it one length for each vertex, so every point gets the length of the first vertex; `SpecifyIndividualTetPointMetric`, which would be right, is never called (C105).
* `RSVSGRIDS` passes `startPnt + size` where the number of points is expected, so it throws for every boundary mesh that has points (C105); the callers in the code all pass none.
* `POINTGRIDS` pushes a fraction of the box as a coordinate, which is right for the unit box only; read, not modelled.
* `MeshTriangulation` meets a triangle with points of different types and no centre: it uses the vertex built for the surface before. TriangulateMesh and TriangulateSnake make no such triangle (C108); intertri, which can have them, is not passed to it anywhere in the code.
* `OrientSurfaceVolume` decides the direction of a block of surfaces with `CalcCentreVolu`, which returns twice the centre (C62). Away from the origin the answer can be wrong: for the cell from (-4, -4, -4) to (-3, -3, -3) every normal points into its first side (C109_direction_refuted). The sides still agree with each other (C109_relative), and they are right whenever the test is (C109_true_sides).
* `SplitSurface` keeps using its surface after a recursive call that may have reallocated the vector of surfaces: a surface of three polygons with a single spare slot is undefined behaviour (C110_dangling_refuted). Each new surface is appended twice to its volumes, by `SwitchIndex` and again by `SplitSurface` (C110_twice_refuted). `mesh::OrderEdges` returns only the first of the surfaces split from one (C110_returned_refuted). With one surface and a capacity of one, `reserve(capacity + capacity/2)` changes nothing and the surface is left unsplit without error (C110_one_refuted).
* `TriangulateAllFaces` and `FlattenBoundaryFaces` leave the new edges and vertices of border faces unmarked, because `borderIsSet` is copied from the input (C111_border_refuted), and `TightenConnectivity` sorts the two cells beside every surface, so that orientations are lost, also for surfaces that are not split (C111_sides_refuted).
* `BuildCutCellDomain` renumbers the copy it made in the previous step, so that the indices double at each step: the greatest index of an edge is 12 * 2^(n-1) and overflows an int from 29 subdomains on (C112_indices). Only the first box is widened by 0.1, so that it may stick out of the next (C112_nested_refuted). With no subdomain vertPerSubDomain is not cleared (C112_none).
* `CleanupSnakeConnec` (snakeengine.cpp:785-795) reads vertind[0] and vertind[1] of the edge of every record of type 2. RemoveIndex has emptied these lists for each collapsed edge (626-641) and each edge with twice the same end (644-659), so that the reads are outside the vector in every clean-up that removes such an edge (C115_collapsed_refuted, C115_again_refuted; the merges in between, 664-740, are not modelled there). The storage of a cleared vector usually still holds the old values, which hides it.
* `FindVertexHole` (meshprocessing.cpp:424) passes indices of edges as positions: it follows the edges stored after those of the vertex. It can take a vertex that is not joined to the start (C113_joined_refuted), miss one that is (C113_missed_refuted) and read past the end of the edges, which happens for a body just spawned around the last vertex of a cell (C113_bounds_refuted). A body whose only inside vertex is near its snaxels gets no hole at all and stays full (C113_every_body_refuted). `FindHolesInSnake` does not reset holeInd: a body without faces, or whose first face has no edges, repeats the hole of the body before (C113_repeat_refuted); C113_holes therefore asks for faces and edges.
* `RemoveSnakeInVolu` takes a surface with corners in two parts away with either part, which leaves the edges of the other with one surface (C99).
* `SpawnAtVertex` reads a cell that does not exist at a vertex of the border of the mesh; a second growth around a vertex leaves it as the only vertex inside, because the flags are intersected (C96). A surface with three edges at the vertex (not a closed polygon) makes it write out of range. When every vertex inside is reached by snaxels going back, `SpawnArrivedSnaxels` marks every vertex of the mesh as inside, because the rule of snake.cpp:486-511 takes the union when the intersection is empty (C97).
* `FollowVertexConnection` gives the same snaxel from both ends of an edge that carries several: its loops (triangulate.cpp 948-966) store the snaxel at position 0 instead of the one found, and `isDir` compares the vertex with itself (C93_both_ends, C93_refuted).
* `MaintainTriangulateSnake` looks only at the marks of the surfaces (triangulate.cpp 154). `SwitchIndex` for a vertex, used by `MergeAllContactVertices`, changes outlines without marking a surface, so triangles to the removed snaxel stay (C95_refuted); only a later write to the surface repairs it.
* `TriangulateMesh` triangulates every surface of the mesh when no surface lies between different parent cells, because an empty list means all (C89_mesh_all).

Derivatives
* The value of an area has no smoothing constant, its derivatives have one (1e-10): for degenerate triangles the gradient is finite but wrong, and near them it is damped (C72). `SurfCentroid::CalcFD` switches derivatives off for good and leaves the value of the last perturbed polygon, so a reused object keeps stale derivatives (C75). Every mixed block of the centroid's Hessian is misplaced: the generated blocks interleave variables, are read with stride 3 instead of 6, and the pair of first and last corner is overwritten; all mixed terms of the second coordinate are exactly zero (C76). `SetEnvironmentEpsilon` changes only the copy of the constants in RSVSmath.cpp, the centroid formulas use another copy (C77).
* The gradient and Hessian of the objective are those of the area shifted by the smoothing constant, while the objective is the plain area (C80). `CalcTriangleDirectVolume` (derivMethod 2) writes through empty vectors, so it is undefined for every triangle (C82). With sparse matrices CalcTriangle drops small entries of the objective's Hessian and CalcTriangleFD does not (C82). A moving surface of the snake with three corners throws, while a mixed surface with three corners gets its first corner twice but keeps stride 3, so its derivatives are read from wrong columns (C79 asks for four).
* Multipliers beyond the limit are shortened and used without a warning, because isLarge is reset right after resizing (SQPstep.hpp:169): the step then misses its targets (C84). A negative limit turns the sign of multipliers (C83). The branch that would report large multipliers indexes the active constraints up to the number of all constraints; it is never reached. With sparse maths a failed factorisation returns before isLarge is set, and the caller reads it (C85).
* Sensitivities are minus the multiplier times the change of the step, not the change itself; the Cholesky method is used on a matrix that is never positive; a calcMethod of 10 or more is reduced for the step but not for the sensitivities (C86). `ReturnSensitivities` reads out of range for a negative constraint number and when no sensitivities were computed (C87). `ReturnGradient` gives zeros for the step (-1) with sparse maths (C87).

Files and configuration
* Mesh files keep 16 decimals whatever the size of the numbers: distinct vertices can collapse (C27). Snake files keep 6 decimals; a snaxel inside an edge can come back at its end, and isMeshVertIn and isFlipped are lost (C28). A fill file that ends with white space counts its last value twice; a blank one gives uninitialised values (C48).
* A shorter list in a configuration file keeps the end of the old list; an empty list or a number that is not finite in a written configuration makes reading it throw (C52). Unknown keys given as strings may throw instead of being counted; a longer separator leaks into the value (C70). Not proved, seen while reading: `ioout::PrepareForUse` appends to the output directory at each call; config/partialconfflat.json names keys that no longer exist.

Families
* `RemoveParent` keeps `parentconn`, which is misaligned after a parent is destroyed (C44, C46). `AddChild` with a list throws after storing the child and sets the parent's element map; `AddParent` with one argument is not counted; copies and `RemoveFromFamily` leave one-sided links; `clear` erases while iterating (C44). `EdgeOnParentBound` uses an edge index as a surface index, so it never lists an inner edge in 2D (C66). `ReturnParentMap` does not clear its values and gives a missing cell a neighbour's position (C46).


## Trusted base

* Coq 8.16.1: its kernel, and `vm_compute` where examples and witnesses are computed.
* The axioms listed below and nothing else. No axiom is declared in this development; sections are closed, so their variables are arguments of the theorems.
* Coquelicot (its theorems on derivatives, all proved there) for C71 to C77.
* Flocq 4.1.0 (definitions of the floating-point formats and operations, their theorems are proved there); Coq's `SpecFloat` for the binary64 instance of `Num.v`.
* The correspondence between the C++ text and the model, by reading; each definition cites the lines it follows. The semantics assumed for the C++ standard library, C library formatting (correctly rounded), nlohmann json and the IEEE format of `double` and `float`.

### Axioms of each theorem

As printed by `Print Assumptions` (also printed during the build under each theorem). F = `functional_extensionality_dep`, S = `ClassicalDedekindReals.sig_forall_dec`, N = `ClassicalDedekindReals.sig_not_dec`, C = `Classical_Prop.classic`; all from Coq's standard library.

* **Closed under the global context (no axiom)** (251): C01_contents, C01_find_exact, C02_max_index, C03_remove_exact, C03_checkready_partial, C03_ready_partial, C03_ready_after_remove_refuted, C04_populate, C05_parent_lookup_partial, C05_index_lookup, C05_stale_parent_after_read_refuted, C06_dehash_partial, C06_member, C06_dehash_twice_refuted, C07_modif_ind_partial, C07_modif_log_refuted, C08_hashed_vector_partial, C08_stale_after_write_refuted, C08_find_sub_list, C08_find_sub_list_reused_refuted, C08_erase_key_pair_refuted, C09_accumulate, C09_keyed_pair, C09_large_matrix_refuted, C10_sort_unique, C10_tighten_mesh, C10_tighten_two_sides_refuted, C11_merge, C11_zero_reference_refuted, C12_switch_volume, C12_switch_surface, C12_switch_edge_partial, C12_switch_edge_refuted, C12_switch_vertex_partial, C12_switch_vertex_refuted, C12_switch_vertex_scoped, C12_switch_volume_scoped, C12_switch_surface_scoped, C13_remove_vertex, C13_remove_edge, C13_remove_surface, C13_remove_volume, C13_one_way_refuted, C14_test_connectivity, C15_bidir_refuted, C15_bidir_partial, C16_borders_3d, C16_borders_2d, C16_borders_fresh, C16_edge_exterior_refuted, C17_reorder, C17_isomorphic, C17_dangling_refuted, C18_crop_core, C18_crop_partial, C18_dangling_refuted, C18_orphan_surface_refuted, C18_border_edge_refuted, C19_connected_vertices, C19_size, C19_label_clash_refuted, C20_connected_volumes, C20_size, C21_ordered, C21_truncated, C21_open, C21_polygon, C21_open_chain_refuted, C21_closure_refuted, C21_sorting_refuted, C21_surface, C21_vertex, C22_conn_vert, C22_conn_one_refuted, C22_ordered_verts, C22_from_edges, C22_two_edges_refuted, C23_edge_from_verts, C23_surf_from_edges, C23_exterior_refuted, C23_other_end, C24_order_match, C24_compare, C24_missing, C24_two_refuted, C24_not_adjacent_refuted, C25_exact_quotients, C25_dimension, C34_on_edge, C34_history, C34_float, C34_nan_refuted, C35_on_edge, C35_float_end_refuted, C36_no_crossing_partial, C36_crossing_refuted, C37_forward_partial, C37_backward_refuted, C38_flip_twice, C38_flip_place, C38_float_refuted, C39_inside, C40_one_crowded_edge_partial, C40_second_edge_refuted, C40_tie_refuted, C41_reports_partial, C41_backward_refuted, C42_sound_partial, C42_early_stop_refuted, C43_between_partial, C43_inverted, C43_unchanged_refuted, C43_not_finite, C44_partial, C44_no_dangling, C44_aligned_partial, C44_count_partial, C44_aligned_refuted, C44_throw_refuted, C44_leave_refuted, C44_copy_refuted, C44_count_refuted, C44_clear_refuted, C45_first, C45_positions, C45_bound, C46_numbering_partial, C46_write, C46_partial, C46_self, C46_missing_refuted, C46_values_refuted, C46_destroyed_refuted, C46_lookup, C46_no_parent, C47_two_dimensions, C47_three_dimensions_partial, C47_out_of_range_refuted, C47_no_inner_surface, C47_bad_mapping, C47_exchange_refuted, C47_chain_refuted, C51_never_returns_refuted, C51_const_3d, C51_const_2d, C52_round_trip, C52_reproduces, C52_shorter_list_refuted, C52_empty_list_refuted, C52_not_finite_refuted, C52_partial_file, C53_out_of_range, C53_partial, C53_refuted, C54_close_3d, C54_close_2d, C54_duplicates_refuted, C54_two_loops_refuted, C55_merge, C58_surface, C58_volume, C58_unknown, C59_new_arrivals_partial, C59_same_end_refuted, C59_inside_refuted, C59_gap_refuted, C60_validate, C60_rejected, C66_never, C66_refuted, C66_listed, C67_edges, C67_verts, C70_assigned, C70_unknown_key_refuted, C70_long_separator_refuted, C70_failures, C91_first, C91_active, C91_refused, C92_back, C93_next_partial, C93_both_ends, C93_refuted, C94_parts, C94_ends, C96_three_refuted, C96_spawn, C96_history, C96_border_refuted, C96_twice_refuted, C97_arrived, C97_collapse_refuted, C98_choice, C98_refused, C98_start, C99_parts, C99_annulus_refuted, C100_merge, C100_detected, C100_three_refuted, C101_limits, C101_motion, C101_border_refuted, C102_step_partial, C102_facing_refuted, C103_mesh, C103_no_faces, C104_input, C105_written, C105_range, C105_each_refuted, C105_grids_throw, C105_grids_first, C105_facets, C106_flags, C106_unknown, C107_file, C108_split, C109_relative, C109_true_sides, C110_order, C110_surface, C110_dangling_refuted, C110_returned_refuted, C110_twice_refuted, C110_one_refuted, C113_search, C113_direct, C113_positions, C113_joined_refuted, C113_missed_refuted, C113_holes, C113_bodies, C113_bounds_refuted, C113_every_body_refuted, C113_near, C113_coords, C114_edges, C114_loose, C114_settled, C114_removals, C113_repeat_refuted, C115_loops, C116_box, C115_again_refuted, C115_recorded, C115_collapsed_refuted, C117_lists, C117_bare, C118_merge.
* **S** (17): C78_variables, C78_fresh, C78_velocities, C89_surfaces, C89_parts, C89_refuses, C89_type, C89_mesh, C89_mesh_all, C95_maintained, C95_history, C95_refuted, C108_triangles, C111_all, C111_flatten, C111_border_refuted, C111_sides_refuted.
* **F, S** (33): C29_bounding_box, C29_scale, C31_entrywise, C32_cross, C32_orientation, C49_third, C49_inside_refuted, C57_chain, C57_symmetric, C68_exit_point, C69_volumes, C69_surfaces, C69_flat_refuted, C69_then_coarsen, C71_closed_surface, C71_tetrahedron, C72_always, C83_limited, C83_unlimited, C83_negative_refuted, C84_sparse, C84_minimal, C84_limit_refuted, C85_defined, C85_frame, C85_fallback, C85_constraint_only, C85_sparse_refuted, C86_sensitivities, C86_change, C86_cholesky_refuted, C112_nested, C112_nested_refuted.
* **C, F, S** (2): C84_step, C86_unit_refuted.
* **F, N, S** (47): C30_partial, C30_cached, C30_refuted, C30_planar_refuted, C31_partial, C31_elements, C31_negative_refuted, C32_plane, C33_partial, C33_refuted, C49_layers, C49_negative_layers, C50_min_max_partial, C50_mean_refuted, C55_groups, C56_partial, C56_centre, C56_refuted, C62_doubled, C62_centre_refuted, C63_surface, C63_volume_hull, C63_small_cells, C63_volume_refuted, C65_scaled_distance, C65_distance_refuted, C71_defined, C71_finite_difference, C75_value, C75_tiny, C75_defined, C75_stale_refuted, C75_fd_value_refuted, C76_cross_terms, C77_centroid_ignored, C77_refuted, C77_last, C79_values, C82_methods, C82_direct_refuted, C82_active, C82_defined, C90_value, C90_whole, C90_closed, C90_translation, C109_direction_refuted.
* **C, F, N, S** (49): C25_grid_partial, C25_large_refuted, C25_faces_partial, C26_double, C26_single_partial, C26_single_refuted, C27_round_trip, C27_negative_count, C27_text_stable, C27_exact, C27_small_refuted, C28_partial, C28_text_stable, C28_on_edge, C28_refuted, C28_inside_refuted, C43_limits_inverted, C48_partial, C48_trailing, C48_dimension, C48_refuted, C48_blank, C61_coordinates_partial, C64_partial, C64_order_refuted, C71_volume, C72_area, C72_close, C72_degenerate, C72_gradient_refuted, C73_length, C74_volume, C75_jacobian, C75_differentiable, C76_refuted, C79_gradient, C79_exact, C80_gradient, C81_constraints_partial, C81_objective_partial, C87_gradient, C87_sensitivities, C87_negative_refuted, C87_absent_refuted, C88_velocities, C88_report, C112_domain, C112_none, C112_indices.

## Testing the theorems

The theorems were tested against wrong programs: definitions of the model were edited in a scratch copy as a realistic bug would (wrong boundary, missed case, swapped argument, dropped update) and everything was rebuilt. `seeded/LOG.jsonl` records 685 edits with the claim broken, the theorems that failed and those that were tightened because they had not.
