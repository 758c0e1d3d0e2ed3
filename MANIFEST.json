{
 "claims": [
  {
   "property": "C01",
   "status": "proved",
   "theorems": [
    "C01_contents",
    "C01_find_exact"
   ],
   "note": "All histories of 13 operation kinds, every legal multimap answer."
  },
  {
   "property": "C02",
   "status": "proved",
   "theorems": [
    "C02_max_index"
   ],
   "note": "All histories."
  },
  {
   "property": "C03",
   "status": "partial",
   "theorems": [
    "C03_remove_exact",
    "C03_checkready_partial",
    "C03_ready_partial",
    "C03_ready_after_remove_refuted"
   ],
   "note": "Deletion is exact and checkready() is sound for all histories; the ready flag alone is refuted: remove() leaves it set with a stale table."
  },
  {
   "property": "C04",
   "status": "proved",
   "theorems": [
    "C04_populate"
   ],
   "note": ""
  },
  {
   "property": "C05",
   "status": "partial",
   "theorems": [
    "C05_parent_lookup_partial",
    "C05_index_lookup",
    "C05_stale_parent_after_read_refuted"
   ],
   "note": "Proved for histories without the inherited assign/Init/read; refuted with them: PrepareForUse keeps a stale parent table."
  },
  {
   "property": "C06",
   "status": "partial",
   "theorems": [
    "C06_dehash_partial",
    "C06_member",
    "C06_dehash_twice_refuted"
   ],
   "note": "Proved for any set of distinct positions and every hash ordering; the repeated call is refuted (end iterator dereferenced)."
  },
  {
   "property": "C07",
   "status": "partial",
   "theorems": [
    "C07_modif_ind_partial",
    "C07_modif_log_refuted"
   ],
   "note": "ReturnModifInd is exact; ReturnModifLog is refuted (it tests the index, not the flag)."
  },
  {
   "property": "C08",
   "status": "partial",
   "theorems": [
    "C08_hashed_vector_partial",
    "C08_stale_after_write_refuted",
    "C08_find_sub_list",
    "C08_find_sub_list_reused_refuted",
    "C08_erase_key_pair_refuted"
   ],
   "note": "Exact after GenerateHash and pushes; refuted after a write through operator[], for a reused FindSubList table and for EraseKeyPair."
  },
  {
   "property": "C09",
   "status": "proved",
   "theorems": [
    "C09_accumulate",
    "C09_keyed_pair",
    "C09_large_matrix_refuted"
   ],
   "note": "Needs nRow*nCol <= 2^31; without it the int key overflows (refutation included)."
  },
  {
   "property": "C10",
   "status": "proved",
   "theorems": [
    "C10_sort_unique",
    "C10_tighten_mesh",
    "C10_tighten_two_sides_refuted"
   ],
   "note": "sort+unique and TightenConnectivity on vectors and on whole meshes; the number of sides of a border surface is not kept ({0,0} becomes {0}), see the refuted theorem."
  },
  {
   "property": "C11",
   "status": "partial",
   "theorems": [
    "C11_merge",
    "C11_zero_reference_refuted"
   ],
   "note": "proved when 0 is only a side of a surface or edge; a 0 in a vertex's edge list is renumbered into a real edge (refuted theorem)."
  },
  {
   "property": "C12",
   "status": "partial",
   "theorems": [
    "C12_switch_volume",
    "C12_switch_surface",
    "C12_switch_edge_partial",
    "C12_switch_edge_refuted",
    "C12_switch_vertex_partial",
    "C12_switch_vertex_refuted",
    "C12_switch_vertex_scoped",
    "C12_switch_volume_scoped",
    "C12_switch_surface_scoped"
   ],
   "note": "types 3,4,5,6,7 in full; type 2 leaves one-way vertex references (refuted), type 1 needs edges with two different ends and vertices listing an edge once (refuted otherwise)."
  },
  {
   "property": "C13",
   "status": "partial",
   "theorems": [
    "C13_remove_vertex",
    "C13_remove_edge",
    "C13_remove_surface",
    "C13_remove_volume",
    "C13_one_way_refuted"
   ],
   "note": "proved for mutually connected meshes; refuted for one-way references."
  },
  {
   "property": "C14",
   "status": "proved",
   "theorems": [
    "C14_test_connectivity"
   ],
   "note": "the returned count is 0 iff every reference is known (0 let through outside surface edge lists) and no vertex or surface has an empty edge list."
  },
  {
   "property": "C15",
   "status": "partial",
   "theorems": [
    "C15_bidir_refuted",
    "C15_bidir_partial"
   ],
   "note": "the returned value ignores one-way references (refuted); the printed one-way total is 0 iff all references are mutual."
  },
  {
   "property": "C16",
   "status": "proved",
   "theorems": [
    "C16_borders_3d",
    "C16_borders_2d",
    "C16_borders_fresh",
    "C16_edge_exterior_refuted"
   ],
   "note": "set_borders on every well connected mesh, 3D and 2D: the flags are exactly the stated ones, everything else is kept, and the result does not depend on the flags before. An edge that lists surface 0 in a mesh with volumes reads out of range (refuted outside well_connected)."
  },
  {
   "property": "C17",
   "status": "proved",
   "theorems": [
    "C17_reorder",
    "C17_isomorphic",
    "C17_dangling_refuted"
   ],
   "note": "ReOrder for every outcome of the four sorts (the comparison functions read coordinates, which are not modelled). A reference to a missing object becomes 0 (C17_dangling_refuted)."
  },
  {
   "property": "C18",
   "status": "partial",
   "theorems": [
    "C18_crop_core",
    "C18_crop_partial",
    "C18_dangling_refuted",
    "C18_orphan_surface_refuted",
    "C18_border_edge_refuted"
   ],
   "note": "Crop up to RemoveSingularConnectors is proved in full when the deletion reaches the exterior or no volume; the whole of Crop when nothing degenerate is left. The property as stated is false otherwise: C18_dangling_refuted, C18_orphan_surface_refuted, C18_border_edge_refuted. Missing: RemoveSingularConnectors on degenerate objects; the final PrepareForUse."
  },
  {
   "property": "C19",
   "status": "proved",
   "theorems": [
    "C19_connected_vertices",
    "C19_size",
    "C19_label_clash_refuted"
   ],
   "note": "ConnectedVertex terminates without error and labels exactly the components of free vertices for every well connected mesh whose edges have two vertices. A wrong size throws. New labels may repeat labels preset by the caller (C19_label_clash_refuted)."
  },
  {
   "property": "C20",
   "status": "proved",
   "theorems": [
    "C20_connected_volumes",
    "C20_size"
   ],
   "note": "ConnectedVolumes likewise, with the surfaces marked in the boundary vector not crossed, for meshes whose surfaces have two sides."
  },
  {
   "property": "C21",
   "status": "partial",
   "theorems": [
    "C21_ordered",
    "C21_truncated",
    "C21_open",
    "C21_polygon",
    "C21_open_chain_refuted",
    "C21_closure_refuted",
    "C21_sorting_refuted",
    "C21_surface",
    "C21_vertex"
   ],
   "note": "Ordered results are permutations with neighbours sharing a vertex (when open chains are errors), truncated ones are chains of distinct originals, and closed polygons are always walked completely, in the abstract and from a mesh. Three claims fail with witnesses: with errout=false an ordered result may have unrelated neighbours, with errout=true an open chain started at its end is accepted, and without the original list elements and pairs are mismatched. What follows truncation is C110."
  },
  {
   "property": "C22",
   "status": "partial",
   "theorems": [
    "C22_conn_vert",
    "C22_conn_one_refuted",
    "C22_ordered_verts",
    "C22_from_edges",
    "C22_two_edges_refuted"
   ],
   "note": "OrderedVerts and ConnVertFromConnEdge on closed polygons with at least three edges. With two edges or one the result is wrong or undefined (C22_two_edges_refuted, C22_conn_one_refuted)."
  },
  {
   "property": "C23",
   "status": "partial",
   "theorems": [
    "C23_edge_from_verts",
    "C23_surf_from_edges",
    "C23_exterior_refuted",
    "C23_other_end"
   ],
   "note": "Full statement for well connected meshes without exterior references on the two edges; a border edge of a two-dimensional mesh leads to undefined behaviour (C23_exterior_refuted)."
  },
  {
   "property": "C24",
   "status": "proved",
   "theorems": [
    "C24_order_match",
    "C24_compare",
    "C24_missing",
    "C24_two_refuted",
    "C24_not_adjacent_refuted"
   ],
   "note": "For duplicate-free cycles with at least three entries and neighbouring values; two entries and values that are not neighbours are refuted."
  },
  {
   "property": "C25",
   "status": "partial",
   "theorems": [
    "C25_exact_quotients",
    "C25_grid_partial",
    "C25_dimension",
    "C25_large_refuted",
    "C25_faces_partial"
   ],
   "note": "Proved for all positive dimensions when the quotients are exact, and with the single and double precision quotients the code uses up to 2^24 vertices plus one row: numbering, sizes, ranges, distinctness, mutual references, and every face's four edges are a closed polygon that OrderEdges orders. Refuted beyond: in a 300x300x300 grid a cell lists faces of another cell. OrientFaces and PrepareForUse's geometry are not included."
  },
  {
   "property": "C26",
   "status": "partial",
   "theorems": [
    "C26_double",
    "C26_single_partial",
    "C26_single_refuted"
   ],
   "note": "Double precision quotients decode every number of every box below 2^31 elements. Single precision (second index of cells and vertices) is proved up to number 2^24 minus the first dimension and refuted beyond (299,124,186 in a 300x300x300 grid decodes to 299,125,186)."
  },
  {
   "property": "C27",
   "status": "proved",
   "theorems": [
    "C27_round_trip",
    "C27_negative_count",
    "C27_text_stable",
    "C27_exact",
    "C27_small_refuted"
   ],
   "note": "C27_round_trip: for every mesh, reading the written file returns all indices, border flags and references and every number to within 1e-16 (exactly from 1/2 upwards); C27_text_stable: a second write gives the same characters; C27_exact: multiples of 2^-16 come back exactly. C27_small_refuted is the finding that the precision is absolute, so that distinct vertices can collapse. isordered is not in the file."
  },
  {
   "property": "C28",
   "status": "partial",
   "theorems": [
    "C28_partial",
    "C28_text_stable",
    "C28_on_edge",
    "C28_refuted",
    "C28_inside_refuted"
   ],
   "note": "C28_partial: all integer fields and the connectivity come back, numbers to within 1e-6 only; C28_on_edge: a snaxel stays on its edge and in order; C28_text_stable. The full claim is false: C28_refuted (a snaxel inside its edge comes back at its end, on another snaxel), C28_inside_refuted (isMeshVertIn and isFlipped are not in the file)."
  },
  {
   "property": "C29",
   "status": "proved",
   "theorems": [
    "C29_bounding_box",
    "C29_scale"
   ],
   "note": "In exact real arithmetic, for meshes with at least one vertex and limits with lower <= upper. C29_bounding_box gives the box, C29_scale the result of Scale, its transformation and the affine map in each direction."
  },
  {
   "property": "C30",
   "status": "partial",
   "theorems": [
    "C30_partial",
    "C30_cached",
    "C30_refuted",
    "C30_planar_refuted"
   ],
   "note": "C30_partial: the length is the distance after any sequence of calls in which distance-changing transformations only happen while nothing is cached. C30_refuted: LinearTransform (and so Scale) after PrepareForUse leaves stale lengths. C30_planar_refuted: meshes of dimension 2 ignore z."
  },
  {
   "property": "C31",
   "status": "partial",
   "theorems": [
    "C31_partial",
    "C31_elements",
    "C31_entrywise",
    "C31_negative_refuted"
   ],
   "note": "C31_partial holds for every sequence without negative factors on a current norm; C31_negative_refuted: mult(-1) makes the norm negative. C31_elements states what each call leaves in the vector."
  },
  {
   "property": "C32",
   "status": "proved",
   "theorems": [
    "C32_cross",
    "C32_orientation",
    "C32_plane"
   ],
   "note": "Real arithmetic, three components. The claim about the plane needs three points that are not on one line."
  },
  {
   "property": "C33",
   "status": "partial",
   "theorems": [
    "C33_partial",
    "C33_refuted"
   ],
   "note": "C33_partial covers no point, one point and wrong sizes. C33_refuted: for two points or more the list version always reads outside a vector."
  },
  {
   "property": "C34",
   "status": "partial",
   "theorems": [
    "C34_on_edge",
    "C34_history",
    "C34_float",
    "C34_nan_refuted"
   ],
   "note": "Exact arithmetic: both overloads keep every distance in [0,1] over any history of moves, velocity changes and flips, respect the step limit and are exact when nothing is limited. Binary64: the result is in [0,1] or NaN, and NaN is reached (refuted witness). The limits are an input here; SetEdgeStepLimits is the subject of C101 and C102."
  },
  {
   "property": "C35",
   "status": "partial",
   "theorems": [
    "C35_on_edge",
    "C35_float_end_refuted"
   ],
   "note": "Exact arithmetic: point at fraction d, end points at 0 and 1, bounding box, other vertices untouched. With doubles the end point can be missed (refuted witness)."
  },
  {
   "property": "C36",
   "status": "partial",
   "theorems": [
    "C36_no_crossing_partial",
    "C36_crossing_refuted"
   ],
   "note": "Proved: the computation succeeds, steps lie in [0, dt], two snaxels alone on an edge get equal steps, and any common step up to the computed ones lets no pair cross. Refuted: with three snaxels on an edge the per-snaxel steps differ and two snaxels cross."
  },
  {
   "property": "C37",
   "status": "partial",
   "theorems": [
    "C37_forward_partial",
    "C37_backward_refuted"
   ],
   "note": "Proved for positive velocities. Refuted for negative ones: the code takes the absolute value of a comparison."
  },
  {
   "property": "C38",
   "status": "proved",
   "theorems": [
    "C38_flip_twice",
    "C38_flip_place",
    "C38_float_refuted"
   ],
   "note": "Exact arithmetic. For doubles a witness shows that two flips can lose a small distance."
  },
  {
   "property": "C39",
   "status": "proved",
   "theorems": [
    "C39_inside"
   ],
   "note": "Union or intersection of the insides, chosen as the code does; undefined when the second snake has fewer flags."
  },
  {
   "property": "C40",
   "status": "partial",
   "theorems": [
    "C40_one_crowded_edge_partial",
    "C40_second_edge_refuted",
    "C40_tie_refuted"
   ],
   "note": "Proved when at most one edge carries several snaxels and their positions differ. Refuted for a second such edge (stale hash table) and for ties."
  },
  {
   "property": "C41",
   "status": "partial",
   "theorems": [
    "C41_reports_partial",
    "C41_backward_refuted"
   ],
   "note": "Exact description of what is reported, and symmetry of collisions. Refuted: a snaxel that travels from the higher-numbered vertex and arrives is missed when the edge has other snaxels."
  },
  {
   "property": "C42",
   "status": "partial",
   "theorems": [
    "C42_sound_partial",
    "C42_early_stop_refuted"
   ],
   "note": "Termination, every marked vertex is enclosed, every origin is marked. Refuted: enclosed vertices further away are left unmarked because the search stops early."
  },
  {
   "property": "C43",
   "status": "partial",
   "theorems": [
    "C43_limits_inverted",
    "C43_between_partial",
    "C43_inverted",
    "C43_unchanged_refuted",
    "C43_not_finite"
   ],
   "note": "Proved for limits in the intended order; the limits of the code are inverted for steps below one, for which the result is shown to be always one of the limits (refuted witness)."
  },
  {
   "property": "C44",
   "status": "partial",
   "theorems": [
    "C44_partial",
    "C44_no_dangling",
    "C44_aligned_partial",
    "C44_count_partial",
    "C44_aligned_refuted",
    "C44_throw_refuted",
    "C44_leave_refuted",
    "C44_copy_refuted",
    "C44_count_refuted",
    "C44_clear_refuted"
   ],
   "note": "Proved with multiplicity for all histories of construction, linking and destruction in which AddChild with a connection list does not throw; destruction never meets a dangling pointer. Alignment of the connection lists is proved while only childless meshes are destroyed. Refuted otherwise: RemoveParent keeps parentconn (C44_aligned_refuted), AddChild with a list throws after the child is stored (C44_throw_refuted), RemoveFromFamily and copies leave one-sided links (C44_leave_refuted, C44_copy_refuted), AddParent without a list is not counted (C44_count_refuted), clear erases while iterating (C44_clear_refuted)."
  },
  {
   "property": "C45",
   "status": "proved",
   "theorems": [
    "C45_first",
    "C45_positions",
    "C45_bound"
   ],
   "note": "For meshes whose connection lists are in order (the condition C44 shows can be lost): SurfInParent gives the first parent that separates the sides, its list form gives all positions, SurfOnParentBound lists exactly the surfaces at the bound."
  },
  {
   "property": "C46",
   "status": "partial",
   "theorems": [
    "C46_numbering_partial",
    "C46_write",
    "C46_partial",
    "C46_self",
    "C46_missing_refuted",
    "C46_values_refuted",
    "C46_destroyed_refuted",
    "C46_lookup",
    "C46_no_parent"
   ],
   "note": "Proved for families whose connection lists are in order and whose parents are distinct objects. Refuted without: missing cells get a neighbour's position (C46_missing_refuted), the values vector is not cleared (C46_values_refuted), positions are wrong after a parent is destroyed (C46_destroyed_refuted)."
  },
  {
   "property": "C47",
   "status": "partial",
   "theorems": [
    "C47_two_dimensions",
    "C47_three_dimensions_partial",
    "C47_out_of_range_refuted",
    "C47_no_inner_surface",
    "C47_bad_mapping",
    "C47_exchange_refuted",
    "C47_chain_refuted"
   ],
   "note": "2D: full statement for every grouping (idempotent mapping). 3D: under the reading that an element erased in place can still be read (C47_three_dimensions_partial); C47_out_of_range_refuted shows line 111 always reads past the end when two touching cells merge. Mappings that pass the code's own test but are not idempotent break the mesh (C47_exchange_refuted, C47_chain_refuted). PrepareForUse at the end is left out."
  },
  {
   "property": "C48",
   "status": "partial",
   "theorems": [
    "C48_partial",
    "C48_trailing",
    "C48_dimension",
    "C48_refuted",
    "C48_blank"
   ],
   "note": "C48_partial: the claim for files that end right after their last number. False otherwise: C48_trailing (with white space at the end the last number counts twice), C48_refuted (witness), C48_blank (a file without numbers gives every cell an uninitialised value). Malformed numbers are not covered."
  },
  {
   "property": "C49",
   "status": "partial",
   "theorems": [
    "C49_layers",
    "C49_negative_layers",
    "C49_third",
    "C49_inside_refuted"
   ],
   "note": "C49_layers proves the claim about internal layers. C49_third and C49_inside_refuted: CoordInVolume returns a third of the average, which is outside the cell."
  },
  {
   "property": "C50",
   "status": "partial",
   "theorems": [
    "C50_min_max_partial",
    "C50_mean_refuted"
   ],
   "note": "C50_min_max_partial: minimum and maximum are right. C50_mean_refuted: the mean is always infinite."
  },
  {
   "property": "C51",
   "status": "partial",
   "theorems": [
    "C51_never_returns_refuted",
    "C51_const_3d",
    "C51_const_2d"
   ],
   "note": "The property is false: the overload for non-const meshes recurses for ever (C51_never_returns_refuted). The const overload returns for every well connected mesh, with the exact result."
  },
  {
   "property": "C52",
   "status": "partial",
   "theorems": [
    "C52_round_trip",
    "C52_reproduces",
    "C52_shorter_list_refuted",
    "C52_empty_list_refuted",
    "C52_not_finite_refuted",
    "C52_partial_file"
   ],
   "note": "Proved: a written configuration read into any parameters (nested, flat, or a flat file through read) gives the written values with the three variable-length lists written over the old ones (C52_round_trip), hence reproduces it when its lists are at least as long (C52_reproduces); a file naming values with their types changes exactly these (C52_partial_file). Refuted: a shorter list keeps the end of the old one, an empty list or a number that is not finite makes the read throw. Text printing and parsing and the state left by a failed read are not modelled; files with unknown keys are not covered."
  },
  {
   "property": "C53",
   "status": "partial",
   "theorems": [
    "C53_out_of_range",
    "C53_partial",
    "C53_refuted"
   ],
   "note": "Refuted as stated: the search reads past the count vector exactly when no surface of the edge is shared with another snake edge of the same parent (C53_out_of_range, witness in C53_refuted). C53_partial: otherwise it stops at the first shared surface and lists exactly the edges of that parent on it."
  },
  {
   "property": "C54",
   "status": "partial",
   "theorems": [
    "C54_close_3d",
    "C54_close_2d",
    "C54_duplicates_refuted",
    "C54_two_loops_refuted"
   ],
   "note": "Containers are numbered 1..n, hold what surrounds the vertices of their block, and every surface with connected vertices (every edge in 2D) has its block as first side. Lists hold duplicates and an annular surface ends with a one-way reference (both refuted with witnesses)."
  },
  {
   "property": "C55",
   "status": "proved",
   "theorems": [
    "C55_groups",
    "C55_merge"
   ],
   "note": "Over the reals, for meshes whose vertices and edges refer to each other. MergeGroupedVertices is proved for edges with two distinct ends; edges between merged vertices become loops, as in the code."
  },
  {
   "property": "C56",
   "status": "partial",
   "theorems": [
    "C56_partial",
    "C56_centre",
    "C56_refuted"
   ],
   "note": "C56_partial covers every case except a discriminant strictly between 0 and DBL_EPSILON, where C56_refuted shows the parameters are not on the sphere. Direction different from zero."
  },
  {
   "property": "C57",
   "status": "proved",
   "theorems": [
    "C57_chain",
    "C57_symmetric"
   ],
   "note": "Stated as the first and second order terms of the composition of two quadratic functions, all sizes. C57_symmetric: symmetry is kept."
  },
  {
   "property": "C58",
   "status": "proved",
   "theorems": [
    "C58_surface",
    "C58_volume",
    "C58_unknown"
   ],
   "note": "C58_unknown: a reference to nothing makes the split throw (after the caller's list was cleared, which the model does not show)."
  },
  {
   "property": "C59",
   "status": "partial",
   "theorems": [
    "C59_new_arrivals_partial",
    "C59_same_end_refuted",
    "C59_inside_refuted",
    "C59_gap_refuted"
   ],
   "note": "Proved when new snaxels are at the ends of their edges with at most one at each end. Refuted for two at one end, for a new snaxel inside an edge, and for gaps left by deletions."
  },
  {
   "property": "C60",
   "status": "proved",
   "theorems": [
    "C60_validate",
    "C60_rejected"
   ],
   "note": "Exact arithmetic, for siblings that are themselves in order."
  },
  {
   "property": "C61",
   "status": "partial",
   "theorems": [
    "C61_coordinates_partial"
   ],
   "note": "Coordinates are taken as exact quotients (the final double division is not rounded); grids of up to 2^24 vertices plus one row, flat grids included."
  },
  {
   "property": "C62",
   "status": "partial",
   "theorems": [
    "C62_doubled",
    "C62_centre_refuted"
   ],
   "note": "C62_doubled: the result is twice a point of the hull. C62_centre_refuted: it is outside the cell in general."
  },
  {
   "property": "C63",
   "status": "partial",
   "theorems": [
    "C63_surface",
    "C63_volume_hull",
    "C63_small_cells",
    "C63_volume_refuted"
   ],
   "note": "C63_surface proves the claim for surfaces, C63_volume_hull that the cell point is in the hull. C63_small_cells and C63_volume_refuted: the weights are perimeters rounded down, so fine cells get the centroid of their first face."
  },
  {
   "property": "C64",
   "status": "partial",
   "theorems": [
    "C64_partial",
    "C64_order_refuted"
   ],
   "note": "C64_partial: zero, sign and order above DBL_EPSILON. C64_order_refuted: the sign is reversed between 1e-16 and DBL_EPSILON."
  },
  {
   "property": "C65",
   "status": "partial",
   "theorems": [
    "C65_scaled_distance",
    "C65_distance_refuted"
   ],
   "note": "C65_scaled_distance: the value is the distance times the length of the normal. C65_distance_refuted: it is not the distance."
  },
  {
   "property": "C66",
   "status": "partial",
   "theorems": [
    "C66_never",
    "C66_refuted",
    "C66_listed"
   ],
   "note": "False of the code: line 1379 passes an edge index to SurfInParent. C66_never shows that no inner edge of a mesh without volumes is ever listed; C66_refuted is a concrete case."
  },
  {
   "property": "C67",
   "status": "proved",
   "theorems": [
    "C67_edges",
    "C67_verts"
   ],
   "note": "The result of FindEdgeInFromSurfOut keeps repeats, as the code does."
  },
  {
   "property": "C68",
   "status": "proved",
   "theorems": [
    "C68_exit_point"
   ],
   "note": "Over the reals with IEEE infinities for division by zero."
  },
  {
   "property": "C69",
   "status": "partial",
   "theorems": [
    "C69_volumes",
    "C69_surfaces",
    "C69_flat_refuted",
    "C69_then_coarsen"
   ],
   "note": "Proved for every well connected mesh with a positive extent in each direction, real coordinates; C69_flat_refuted: without extent in a direction (every planar 2D mesh) the function converts 0/0 to int. Rounding of the box coordinate is not modelled."
  },
  {
   "property": "C70",
   "status": "partial",
   "theorems": [
    "C70_assigned",
    "C70_unknown_key_refuted",
    "C70_long_separator_refuted",
    "C70_failures"
   ],
   "note": "Proved for every list of strings naming known values with texts of the right type, mixed with strings without separator (C70_assigned). Refuted: some unknown keys make the update throw instead of being counted, and a separator of two characters leaves its second character in the value."
  },
  {
   "property": "C71",
   "status": "proved",
   "theorems": [
    "C71_volume",
    "C71_defined",
    "C71_finite_difference",
    "C71_closed_surface",
    "C71_tetrahedron"
   ],
   "note": "All histories of Assign, AssignOne, Calc, CalcFD and SetEnvironmentEpsilon on one object; real numbers instead of doubles. C71_finite_difference: CalcFD gives the same Jacobian, the volume being affine in each coordinate. C71_closed_surface: translation invariance for any closed surface."
  },
  {
   "property": "C72",
   "status": "partial",
   "theorems": [
    "C72_area",
    "C72_always",
    "C72_close",
    "C72_degenerate",
    "C72_gradient_refuted"
   ],
   "note": "The value is the area (C72_area). Jacobian and Hessian are those of sqrt(4 area^2 + eps)/2 with the epsilon last set, so they are not the derivatives of the value (C72_gradient_refuted, with the initial 1e-10); C72_close bounds the relative error of the Jacobian by eps/(8 area^2), C72_degenerate gives zero for collinear points. Real numbers instead of doubles."
  },
  {
   "property": "C73",
   "status": "proved",
   "theorems": [
    "C73_length"
   ],
   "note": "For distinct points; for equal points the code divides by zero. Real numbers instead of doubles."
  },
  {
   "property": "C74",
   "status": "proved",
   "theorems": [
    "C74_volume"
   ],
   "note": "Includes the two entries of the Hessian that are never written: they stay zero in every history. Real numbers instead of doubles."
  },
  {
   "property": "C75",
   "status": "partial",
   "theorems": [
    "C75_value",
    "C75_tiny",
    "C75_jacobian",
    "C75_differentiable",
    "C75_defined",
    "C75_stale_refuted",
    "C75_fd_value_refuted"
   ],
   "note": "Value exact for outlines of length 1e-15 or more, zero below; gradient within an explicit bound in the smoothing constants (zero error when they are zero). Missing: CalcFD breaks the claim for later calls (C75_stale_refuted, C75_fd_value_refuted). Real numbers instead of doubles."
  },
  {
   "property": "C76",
   "status": "partial",
   "theorems": [
    "C76_cross_terms",
    "C76_refuted"
   ],
   "note": "Refuted: in every history all mixed second derivatives of the second coordinate are zero, while the true value for the unit square is 1/32. Missing: the blocks for a single corner are not compared with the true derivatives."
  },
  {
   "property": "C77",
   "status": "partial",
   "theorems": [
    "C77_centroid_ignored",
    "C77_refuted",
    "C77_last"
   ],
   "note": "Refuted: Calc never depends on the constants set. The theorem C77_centroid_ignored holds for all constants and objects. C77_last: after any history the constants are those of the last SetEnvironmentEpsilon, field by field."
  },
  {
   "property": "C78",
   "status": "proved",
   "theorems": [
    "C78_variables",
    "C78_fresh",
    "C78_velocities"
   ],
   "note": "For all snakes. Connectivity is given as the ends of the edges of each snaxel."
  },
  {
   "property": "C79",
   "status": "proved",
   "theorems": [
    "C79_values",
    "C79_gradient",
    "C79_exact"
   ],
   "note": "Over the reals, for all triangulations. The error is zero for triangles without a moving centre and dense matrices (C79_exact); otherwise it is that of the centroid slopes (C75) plus DBL_EPSILON per value left out of a sparse matrix. Surfaces whose centre is differentiated have at least four corners, no zero side and an outline of at least 1e-15."
  },
  {
   "property": "C80",
   "status": "proved",
   "theorems": [
    "C80_gradient"
   ],
   "note": "The gradient is that of the area shifted by the smoothing constant, not of the objective value itself; the error is as in C79."
  },
  {
   "property": "C81",
   "status": "partial",
   "theorems": [
    "C81_constraints_partial",
    "C81_objective_partial"
   ],
   "note": "Proved when no surface with an added centre moves. Missing: curvature of the centres, whose mixed blocks are wrong (C76)."
  },
  {
   "property": "C82",
   "status": "partial",
   "theorems": [
    "C82_methods",
    "C82_direct_refuted",
    "C82_active",
    "C82_defined"
   ],
   "note": "Methods 0 and 1 agree (the objective Hessian for dense matrices), the active sets are exact, and the calculation is defined for good environments. Refuted for method 2, which is undefined for every triangle."
  },
  {
   "property": "C83",
   "status": "proved",
   "theorems": [
    "C83_limited",
    "C83_unlimited",
    "C83_negative_refuted"
   ],
   "note": "Limits at or above zero; C83_negative_refuted shows what a negative limit does."
  },
  {
   "property": "C84",
   "status": "proved",
   "theorems": [
    "C84_step",
    "C84_sparse",
    "C84_minimal",
    "C84_limit_refuted"
   ],
   "note": "Decompositions are oracles that solve the systems suited to them, in exact arithmetic; C84_step is dense, C84_sparse sparse maths; C84_limit_refuted shows the loss when a multiplier is beyond the limit."
  },
  {
   "property": "C85",
   "status": "proved",
   "theorems": [
    "C85_defined",
    "C85_frame",
    "C85_fallback",
    "C85_constraint_only",
    "C85_sparse_refuted"
   ],
   "note": "Dense maths; C85_sparse_refuted is the finding for sparse maths."
  },
  {
   "property": "C86",
   "status": "proved",
   "theorems": [
    "C86_sensitivities",
    "C86_change",
    "C86_cholesky_refuted",
    "C86_unit_refuted"
   ],
   "note": "For runs that ended with well-posed equations; the two refuted theorems are findings."
  },
  {
   "property": "C87",
   "status": "proved",
   "theorems": [
    "C87_gradient",
    "C87_sensitivities",
    "C87_negative_refuted",
    "C87_absent_refuted"
   ],
   "note": "ReturnSensitivities after sensitivities were computed; the refuted theorems are findings."
  },
  {
   "property": "C88",
   "status": "proved",
   "theorems": [
    "C88_velocities",
    "C88_report"
   ],
   "note": "Plain triangles, whose points are snaxels, mesh vertices or fixed points; dense maths; decompositions are oracles as in C84."
  },
  {
   "property": "C89",
   "status": "proved",
   "theorems": [
    "C89_surfaces",
    "C89_parts",
    "C89_refuses",
    "C89_type",
    "C89_mesh",
    "C89_mesh_all"
   ],
   "note": "Arrays are lists with their largest index; the surfaces are given as closed polygons with distinct corners. C89_mesh_all records that without parents, and in two dimensions, TriangulateMesh takes every surface."
  },
  {
   "property": "C90",
   "status": "proved",
   "theorems": [
    "C90_value",
    "C90_whole",
    "C90_closed",
    "C90_translation"
   ],
   "note": "Real arithmetic. The calculator is one without variables (dvMap empty), as a new one is. C90_translation needs the directed sides of the surfaces of the cell to cancel."
  },
  {
   "property": "C91",
   "status": "proved",
   "theorems": [
    "C91_first",
    "C91_active",
    "C91_refused"
   ],
   "note": "The decision by first corners (C91_first); with equal corners on each uncrossed surface it is the expected set (C91_active)."
  },
  {
   "property": "C92",
   "status": "proved",
   "theorems": [
    "C92_back"
   ],
   "note": "FollowSnaxelDirection for every snake whose snaxels have different indices."
  },
  {
   "property": "C93",
   "status": "partial",
   "theorems": [
    "C93_next_partial",
    "C93_both_ends",
    "C93_refuted"
   ],
   "note": "C93_next_partial covers an edge with at most one snaxel. C93_both_ends shows that with two snaxels of different ranks the same one is given from both ends, and C93_refuted gives a case where it is not the first one met; so the full claim is false of the code."
  },
  {
   "property": "C94",
   "status": "partial",
   "theorems": [
    "C94_parts",
    "C94_ends"
   ],
   "note": "C94_parts assumes that no edge of the surface carries two snaxels (see C93), that one edge of the snake leaves each snaxel in the surface, and that snaxels leave the vertices inside. C94_ends has no hypothesis on the mesh or the snake; its hypothesis is only the fuel."
  },
  {
   "property": "C95",
   "status": "proved",
   "theorems": [
    "C95_maintained",
    "C95_history",
    "C95_refuted"
   ],
   "note": "C95_maintained: one call, for any marked set of surfaces, gives exactly the triangles of the present surfaces and nothing of the ones gone; C95_history: over any sequence of changes. Both ask that changed surfaces are marked; C95_refuted shows that SwitchIndex on a vertex does not mark them and stale triangles stay."
  },
  {
   "property": "C96",
   "status": "partial",
   "theorems": [
    "C96_three_refuted",
    "C96_spawn",
    "C96_history",
    "C96_border_refuted",
    "C96_twice_refuted"
   ],
   "note": "Proved for meshes with cells (3D) and interior vertices: C96_spawn for one growth on any snake, C96_history for any sequence of distinct vertices. Refuted at the border (undefined read), for a second growth around the same vertex, and where a surface has three edges at a vertex (C96_three_refuted, undefined read). The two-dimensional branch (SpawnAtVertexSurf2D) is modelled but has no theorem."
  },
  {
   "property": "C97",
   "status": "partial",
   "theorems": [
    "C97_arrived",
    "C97_collapse_refuted"
   ],
   "note": "C97_arrived describes the result for every list of impacts in 3D, with the vertices inside in all four cases; the case in which every inside vertex is reached going back contradicts the expectation (C97_collapse_refuted). PrepareForUse at the end is not modelled."
  },
  {
   "property": "C98",
   "status": "proved",
   "theorems": [
    "C98_choice",
    "C98_refused",
    "C98_start"
   ],
   "note": "In three dimensions. The mesh after SetBorders is taken to be cellular: each vertex that is not a corner of an outer surface is interior in the sense of C96 and each edge has two ends; the ball example meets this. The rest of SpawnRSVS (time step, merging of meeting snaxels, removal of the outer or inner snake, second growth) is not modelled."
  },
  {
   "property": "C99",
   "status": "partial",
   "theorems": [
    "C99_parts",
    "C99_annulus_refuted"
   ],
   "note": "For snakes of three dimensions. Each surface of the snake is taken to have its corners in one part; without this the remaining snake need not be closed (C99_annulus_refuted). The flags of inside vertices are as sound as those of C42, which is partial: the search stops once every snaxel has been met."
  },
  {
   "property": "C100",
   "status": "partial",
   "theorems": [
    "C100_merge",
    "C100_detected",
    "C100_three_refuted"
   ],
   "note": "C100_merge gives the whole effect for contacts in which no snaxel touches two others, and C100_detected shows that the contacts reported are of that kind when an edge carries at most two snaxels. With three snaxels at one point the claim is false (C100_three_refuted)."
  },
  {
   "property": "C101",
   "status": "proved",
   "theorems": [
    "C101_limits",
    "C101_motion",
    "C101_border_refuted"
   ],
   "note": "C101_limits, C101_motion; C101_border_refuted records that the comment of the function claims more. Numbers are exact (Q)."
  },
  {
   "property": "C102",
   "status": "partial",
   "theorems": [
    "C102_step_partial",
    "C102_facing_refuted"
   ],
   "note": "C102_step_partial: snaxels alone on their edge. For edges with several snaxels the claim is false (C102_facing_refuted). Numbers are exact (Q)."
  },
  {
   "property": "C103",
   "status": "proved",
   "theorems": [
    "C103_mesh",
    "C103_no_faces"
   ],
   "note": "For all outputs of tetgen whose tables are in range. PrepareForUse after the construction is not part of the theorem; numbers are copied, whatever their type."
  },
  {
   "property": "C104",
   "status": "proved",
   "theorems": [
    "C104_input"
   ],
   "note": "For consistent meshes with polygonal surfaces; the order of the edges of a surface is what OrderEdges gives (C21, C22). Holes and regions of tetgenio are not modelled."
  },
  {
   "property": "C105",
   "status": "partial",
   "theorems": [
    "C105_written",
    "C105_range",
    "C105_each_refuted",
    "C105_grids_throw",
    "C105_grids_first",
    "C105_facets"
   ],
   "note": "The full claim, that every point gets its own length, is refuted (C105_each_refuted, C105_grids_throw, C105_grids_first). What is written and what stays is proved for all ranges."
  },
  {
   "property": "C106",
   "status": "proved",
   "theorems": [
    "C106_flags",
    "C106_unknown"
   ],
   "note": "For consistent meshes with polygonal surfaces; an unknown point is undefined behaviour (C106_unknown)."
  },
  {
   "property": "C107",
   "status": "proved",
   "theorems": [
    "C107_file"
   ],
   "note": "For all outputs of tetgen with tables of the announced size. How numbers are printed is not modelled."
  },
  {
   "property": "C108",
   "status": "proved",
   "theorems": [
    "C108_split",
    "C108_triangles"
   ],
   "note": "The mesh is prepared (orders and hash tables are those of C01 and C13); the final PrepareForUse is left out. Coordinates are recorded as the index of the point of trivert they are taken from."
  },
  {
   "property": "C109",
   "status": "partial",
   "theorems": [
    "C109_relative",
    "C109_true_sides",
    "C109_direction_refuted"
   ],
   "note": "The relative orientation is proved for every mesh and every answer of the geometric test, and the direction is right whenever the test is. The last sentence is refuted for the test in the code (C109_direction_refuted): it uses twice the centre of the cell. The test of the snake is covered by the parameter only."
  },
  {
   "property": "C110",
   "status": "partial",
   "theorems": [
    "C110_order",
    "C110_surface",
    "C110_dangling_refuted",
    "C110_returned_refuted",
    "C110_twice_refuted",
    "C110_one_refuted"
   ],
   "note": "C110_order holds for every capacity of at least two when no surface has more than two polygons; C110_surface holds for any number of polygons when there is room for all of them. The rest of the claim is false of the code, with witnesses: three polygons and one spare slot are undefined behaviour, the new surface is listed twice in its volumes, only the first of several new surfaces is returned, and a single surface with capacity one is left unsplit."
  },
  {
   "property": "C111",
   "status": "partial",
   "theorems": [
    "C111_all",
    "C111_flatten",
    "C111_border_refuted",
    "C111_sides_refuted"
   ],
   "note": "Proved for both functions, except for what is refuted: the border marks of the new edges and vertices (C111_border_refuted) and the order of the two cells beside a surface (C111_sides_refuted). The surfaces are polygons with distinct corners, listed in order. The positions of the new vertices are not modelled."
  },
  {
   "property": "C112",
   "status": "partial",
   "theorems": [
    "C112_domain",
    "C112_nested",
    "C112_nested_refuted",
    "C112_none",
    "C112_indices"
   ],
   "note": "C112_domain: consistency, numbers of objects, corners of every box and the announced vertices, for all bounds with lower < upper and all n >= 1; C112_nested: the boxes from the second on grow and the last is the outer one. Refuted: the first box in the second (C112_nested_refuted); the indices double at each step (C112_indices); the list is not cleared when n = 0 (C112_none)."
  },
  {
   "property": "C113",
   "status": "partial",
   "theorems": [
    "C113_search",
    "C113_direct",
    "C113_positions",
    "C113_joined_refuted",
    "C113_missed_refuted",
    "C113_holes",
    "C113_bodies",
    "C113_bounds_refuted",
    "C113_every_body_refuted",
    "C113_repeat_refuted",
    "C113_near",
    "C113_coords"
   ],
   "note": "The choice for each body (C113_bodies), the marks (C113_holes), the vertices in doubt and the coordinates are proved. The continuation through vertices in doubt is proved for what the code reads (C113_search), which is the edges of the mesh only where every index of an edge is its position (C113_positions); otherwise it is refuted: it leaves the edges, misses vertices, and reads past the end of the array."
  },
  {
   "property": "C114",
   "status": "proved",
   "theorems": [
    "C114_edges",
    "C114_loose",
    "C114_settled",
    "C114_removals"
   ],
   "note": "The calls of SwitchIndex between the records are left out: they change the mesh, not the records (see C12 and C100)."
  },
  {
   "property": "C115",
   "status": "proved",
   "theorems": [
    "C115_loops",
    "C115_again_refuted",
    "C115_recorded",
    "C115_collapsed_refuted"
   ],
   "note": "DeHashParent of the snaxedges is left out: it changes the hash of the snaxedges only. The merges between the two loops and the reading of the records again are not part of the claim; C115_collapsed_refuted and C115_again_refuted show that this reading is outside the lists of the edges removed."
  },
  {
   "property": "C116",
   "status": "proved",
   "theorems": [
    "C116_box"
   ],
   "note": "Coordinates are rationals or infinities; they are only compared and copied. NaN is left out."
  },
  {
   "property": "C117",
   "status": "proved",
   "theorems": [
    "C117_lists",
    "C117_bare"
   ],
   "note": "The merges between these passes, ModifyMergVoluConnec and the removals from the arrays themselves are not part of the claim."
  },
  {
   "property": "C118",
   "status": "proved",
   "theorems": [
    "C118_merge"
   ],
   "note": "scopeind, which SwitchIndex does not read here, is left empty."
  }
 ]
}