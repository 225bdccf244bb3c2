{
 "claims": [
  {
   "property": "C01",
   "status": "proved",
   "theorems": [
    "C01_predicted_size_is_free_size"
   ],
   "note": ""
  },
  {
   "property": "C02",
   "status": "proved",
   "theorems": [
    "C02_everything_handled"
   ],
   "note": ""
  },
  {
   "property": "C03",
   "status": "proved",
   "theorems": [
    "C03_columns_sum_to_one"
   ],
   "note": ""
  },
  {
   "property": "C04",
   "status": "proved",
   "theorems": [
    "C04_entries_between_zero_and_one",
    "C04_smooth_functions_independent"
   ],
   "note": ""
  },
  {
   "property": "C05",
   "status": "proved",
   "theorems": [
    "C05_C1_between_the_ends",
    "C05_C1_at_the_ends"
   ],
   "note": "tensor bases with the Greville-uniform midpoint form of C1; exclusions as in the property text"
  },
  {
   "property": "C06",
   "status": "proved",
   "theorems": [
    "C06_continuous_at_smooth_vertices",
    "C06_continuous_at_sharp_vertices_refuted",
    "C06_continuous_at_irregular_boundary_vertices_refuted"
   ],
   "note": "The property as stated is false of the code: refuted by two machine-checked witnesses (sharp vertex, boundary vertex of valence 3); the positive part is proved for all other vertices."
  },
  {
   "property": "C07",
   "status": "proved",
   "theorems": [
    "C07_index_from_corner_is_valid",
    "C07_index_determines_steps",
    "C07_sides_symmetric",
    "C07_origin_is_corner_function",
    "C07_index_from_two_sides"
   ],
   "note": "tensor bases; hierarchical bases: see C65"
  },
  {
   "property": "C08",
   "status": "proved",
   "theorems": [
    "C08_foreign_side_rejected",
    "C08_out_of_range_rejected",
    "C08_origin_accepted_on_any_side"
   ],
   "note": ""
  },
  {
   "property": "C09",
   "status": "proved",
   "theorems": [
    "C09_side_numbers_injective",
    "C09_corner_numbers_injective",
    "C09_side_numbers_in_range",
    "C09_side_numbers_onto",
    "C09_corner_numbers_in_range",
    "C09_corner_numbers_onto",
    "C09_side_array_has_right_length",
    "C09_marks_are_independent"
   ],
   "note": ""
  },
  {
   "property": "C22",
   "status": "proved",
   "theorems": [
    "C22_back_is_identity",
    "C22_back_restores_bases",
    "C22_back_is_identity_G1"
   ],
   "note": ""
  },
  {
   "property": "C23",
   "status": "proved",
   "theorems": [
    "C23_any_history_refuted",
    "C23_two_swaps_refuted",
    "C23_rotations_in_range"
   ],
   "note": "False as stated: refuted by witnesses; the histories for which it holds are characterised by C23_rotations_in_range."
  },
  {
   "property": "C24",
   "status": "proved",
   "theorems": [
    "C24_side_map_follows_geometry",
    "C24_two_rotations_refuted"
   ],
   "note": "proved for the admissible histories of the property; shown false beyond them"
  },
  {
   "property": "C25",
   "status": "proved",
   "theorems": [
    "C25_boundary_side_goes_west",
    "C25_interface_sides",
    "C25_interface_positions_match",
    "C25_vertex_goes_south_west",
    "C25_vertex_goes_south_west_G1",
    "C25_negative_interface_refuted"
   ],
   "note": "Boundary sides and vertices: both orientations. Interfaces: positive orientation proved; for negative orientation the property is refuted (not reachable through gsApproxC1Spline/gsC1SurfSpline, which fix orientations first)."
  },
  {
   "property": "C42",
   "status": "proved",
   "theorems": [
    "C42_geometry_comes_back_symmetric",
    "C42_geometry_comes_back_refuted"
   ],
   "note": "False as stated (asymmetric knots); proved for symmetric knot vectors."
  },
  {
   "property": "C10",
   "status": "proved",
   "theorems": [
    "C10_lowest_and_rest",
    "C10_any_sorting_algorithm",
    "C10_too_many_removed",
    "C10_too_many_selected",
    "C10_lowest_corners",
    "C10_lowest_corners_refuted"
   ],
   "note": "Indices: proved. Corner selection compares patches only: proved for distinct patches, refuted otherwise."
  },
  {
   "property": "C11",
   "status": "proved",
   "theorems": [
    "C11_sharp_corners",
    "C11_flags_admissible"
   ],
   "note": ""
  },
  {
   "property": "C12",
   "status": "proved",
   "theorems": [
    "C12_blocks_tile",
    "C12_each_function_reads_its_own_row"
   ],
   "note": ""
  },
  {
   "property": "C13",
   "status": "proved",
   "theorems": [
    "C13_history_is_fresh",
    "C13_history_runs",
    "C13_recomputation_ignores_cache",
    "C13_export_to_patches",
    "C13_stale_cache_refuted"
   ],
   "note": "Histories of exportPatch: proved. After exportToPatches of other patches exportPatch(p,false) is stale: refuted."
  },
  {
   "property": "C14",
   "status": "proved",
   "theorems": [
    "C14_result_does_not_depend_on_state",
    "C14_second_call_changes_nothing",
    "C14_bases_appended_refuted"
   ],
   "note": "Proved for gsSmoothInterfaces; refuted for the base implementation and gsDPatch, whose bases are appended."
  },
  {
   "property": "C43",
   "status": "proved",
   "theorems": [
    "C43_smooth_patches_reproduced",
    "C43_export_is_projection"
   ],
   "note": ""
  },
  {
   "property": "C17",
   "status": "proved",
   "theorems": [
    "C17_predicted_size_is_free_size",
    "C17_unsupported_vertex_is_an_error",
    "C17_sharp_vertices_refuted",
    "C17_tensor_bases_admissible"
   ],
   "note": "Bases are given by their size, boundary rows, corner functions and _indexFromVert, with the ring arrangement of RingSpec.v assumed (proved for tensor bases). A sharp boundary vertex of valence > 3 is an error too, so the property's restriction to smooth vertices is refuted."
  },
  {
   "property": "C18",
   "status": "proved",
   "theorems": [
    "C18_predicted_size_is_free_size",
    "C18_unsupported_vertex_is_an_error",
    "C18_interior_valence_two_refuted"
   ],
   "note": "Interior vertices of valence 1 and 2 are an error; all other topologies proved. Same assumption on the bases as C17."
  },
  {
   "property": "C15",
   "status": "proved",
   "theorems": [
    "C15_rows_sum_to_one",
    "C15_partition_of_unity_kept",
    "C15_unknown_option_is_an_error"
   ],
   "note": "real arithmetic"
  },
  {
   "property": "C16",
   "status": "proved",
   "theorems": [
    "C16_documented_meaning_refuted",
    "C16_exchanged_meaning"
   ],
   "note": "False as documented, for every valence >= 3: the two option values are exchanged; the exchanged statement is proved."
  },
  {
   "property": "C44",
   "status": "proved",
   "theorems": [
    "C44_projected_points_form_a_planar_star"
   ],
   "note": "real arithmetic"
  },
  {
   "property": "C19",
   "status": "proved",
   "theorems": [
    "C19_planar_triangle",
    "C19_surface_triangle",
    "C19_degenerate_is_an_error",
    "C19_other_dimensions_refused",
    "C19_weights_written",
    "C19_partition_of_unity_kept"
   ],
   "note": "Real arithmetic; the QR solve is Cramer's rule; points and normals of the geometry are inputs. On surfaces the combination is the foot of the control point on the tangent plane."
  },
  {
   "property": "C20",
   "status": "proved",
   "theorems": [
    "C20_rotation_of_directions",
    "C20_opposite_directions_refuted"
   ],
   "note": "Opposite directions give minus the identity (determinant -1): refuted there; proved for all other pairs."
  },
  {
   "property": "C21",
   "status": "proved",
   "theorems": [
    "C21_refinement_dpatch",
    "C21_refinement_almost",
    "C21_fuel_does_not_matter",
    "C21_number_of_elements",
    "C21_too_few_elements_rejected",
    "C21_release_build_refuted",
    "C21_special_vertices",
    "C21_special_vertices_once"
   ],
   "note": "Termination, exactly the necessary corners, each once, boxes inside. Start lists of gsDPatch (getEVs, G+Smo core) are arbitrary. Without the assertion of gsDPatch (release builds) boxes may leave the patch: refuted."
  },
  {
   "property": "C45",
   "status": "proved",
   "theorems": [
    "C45_surface_unchanged",
    "C45_tables_keep_the_surface",
    "C45_surface_unchanged_G1_symmetric",
    "C45_swap_G1",
    "C45_surface_unchanged_G1_refuted"
   ],
   "note": "gsPatchReparameterized: proved. gsG1AuxiliaryPatch: proved for symmetric knots, refuted in general (knots are not reversed). B-splines by Cox-de Boor; parameters on knot lines excluded."
  },
  {
   "property": "C26",
   "status": "proved",
   "theorems": [
    "C26_rows",
    "C26_small_patch_refuted",
    "C26_small_patch_out_of_range_refuted"
   ],
   "note": "geometry without inner knots, at least four functions per direction; refuted for three"
  },
  {
   "property": "C27",
   "status": "proved",
   "theorems": [
    "C27_coefficients",
    "C27_columns_disjoint"
   ],
   "note": ""
  },
  {
   "property": "C46",
   "status": "proved",
   "theorems": [
    "C46_rows",
    "C46_rows_only_if",
    "C46_size_check_refuted"
   ],
   "note": "exact condition; the check made by the code is not sufficient"
  },
  {
   "property": "C47",
   "status": "proved",
   "theorems": [
    "C47_coefficients"
   ],
   "note": ""
  },
  {
   "property": "C28",
   "status": "proved",
   "theorems": [
    "C28_concatenation",
    "C28_degree"
   ],
   "note": ""
  },
  {
   "property": "C29",
   "status": "proved",
   "theorems": [
    "C29_boundary_functions",
    "C29_boundary_functions_one_piece",
    "C29_corner_function",
    "C29_corner_function_one_piece"
   ],
   "note": "one or nine pieces"
  },
  {
   "property": "C30",
   "status": "proved",
   "theorems": [
    "C30_support",
    "C30_support_refuted"
   ],
   "note": "support(i) only works for the first piece"
  },
  {
   "property": "C31",
   "status": "proved",
   "theorems": [
    "C31_numbering"
   ],
   "note": ""
  },
  {
   "property": "C32",
   "status": "proved",
   "theorems": [
    "C32_block_points"
   ],
   "note": ""
  },
  {
   "property": "C33",
   "status": "proved",
   "theorems": [
    "C33_regions",
    "C33_halves",
    "C33_regions_refuted"
   ],
   "note": "holds when the corner distances fit; functions are added twice at special boundary vertices with a distance above the degree"
  },
  {
   "property": "C48",
   "status": "proved",
   "theorems": [
    "C48_actions",
    "C48_actions_refuted"
   ],
   "note": "for equal degrees in both directions; with different degrees the lengths of blocks are interchanged"
  },
  {
   "property": "C49",
   "status": "proved",
   "theorems": [
    "C49_lines",
    "C49_self_interface_refuted"
   ],
   "note": "for interfaces between different patches; self-interfaces add the line twice"
  },
  {
   "property": "C50",
   "status": "proved",
   "theorems": [
    "C50_block",
    "C50_same_block",
    "C50_mirrored_refuted"
   ],
   "note": "fails when opposite sides are joined in reverse orientation"
  },
  {
   "property": "C51",
   "status": "proved",
   "theorems": [
    "C51_interface_indices",
    "C51_corner_functions"
   ],
   "note": "tensor bases"
  },
  {
   "property": "C34",
   "status": "proved",
   "theorems": [
    "C34_weights",
    "C34_copy_refuted"
   ],
   "note": "All histories of set operations. The copy constructor drops the weights (refuted separately)."
  },
  {
   "property": "C35",
   "status": "proved",
   "theorems": [
    "C35_initial",
    "C35_special",
    "C35_succeeds"
   ],
   "note": "Any number of calls; initial special vertices included."
  },
  {
   "property": "C36",
   "status": "proved",
   "theorems": [
    "C36_values",
    "C36_short_sides_refuted"
   ],
   "note": "Holds when twice the degree fits on the side; refuted otherwise (unsigned subtraction)."
  },
  {
   "property": "C37",
   "status": "proved",
   "theorems": [
    "C37_joined",
    "C37_single",
    "C37_symmetric",
    "C37_irreflexive",
    "C37_edges"
   ],
   "note": "Tensor-product bases; the hierarchical isLocallyConnected is not modelled."
  },
  {
   "property": "C39",
   "status": "proved",
   "theorems": [
    "C39_own_corners",
    "C39_second_corner_refuted",
    "C39_parameter",
    "C39_from_corner_refuted"
   ],
   "note": "The claim is false for the second corner: its parameter is looked up from the first corner. Proved for the first corner, and for the second with symmetric knots."
  },
  {
   "property": "C52",
   "status": "proved",
   "theorems": [
    "C52_distances",
    "C52_other_interfaces_refuted"
   ],
   "note": "Other interfaces at the vertex keep their old distance (refuted for them)."
  },
  {
   "property": "C53",
   "status": "proved",
   "theorems": [
    "C53_round_trip",
    "C53_sides_agree",
    "C53_invariant",
    "C53_counts",
    "C53_shifted_refuted",
    "C53_multiple_refuted"
   ],
   "note": "Open knot vectors on [0,L] with simple interior knots; refuted for shifted intervals and multiple knots."
  },
  {
   "property": "C38",
   "status": "proved",
   "theorems": [
    "C38_all",
    "C38_from_patch",
    "C38_multiplicity_refuted",
    "C38_degree_refuted"
   ],
   "note": "Termination, agreement of the knots and exactness (least set of knots closed under the interfaces) for simple interior knots and equal degrees; refuted with a double knot and with different degrees."
  },
  {
   "property": "C40",
   "status": "proved",
   "theorems": [
    "C40_trace_jet",
    "C40_normal_jet",
    "C40_glued",
    "C40_glued_normal",
    "C40_planar_trace",
    "C40_planar_normal",
    "C40_gradient_unique",
    "C40_surface_trace",
    "C40_surface_normal"
   ],
   "note": "Over the reals, with B-splines given by the Cox-de Boor recurrence; derivatives are from the right. The projection of the gluing data and of the functions to spline spaces (an external linear solve) is not part of the model."
  },
  {
   "property": "C41",
   "status": "proved",
   "theorems": [
    "C41_rotation",
    "C41_orthogonal_iff",
    "C41_upright",
    "C41_upside_down_refuted",
    "C41_rotation_refuted",
    "C41_coefs"
   ],
   "note": "The original claim (a rotation for every normal) is refuted; the theorems say exactly for which normals it holds."
  },
  {
   "property": "C54",
   "status": "proved",
   "theorems": [
    "C54_edge",
    "C54_transversal_exists",
    "C54_corner",
    "C54_plus_unique",
    "C54_minus_unique",
    "C54_glued",
    "C54_planar",
    "C54_nonvacuous"
   ],
   "note": "Real arithmetic is exact; the derivatives of the geometry at the vertex and the gluing data are given. C54_glued assumes that the transversal vectors of the two patches agree; C54_planar proves it for exact gluing data of planar geometries."
  },
  {
   "property": "C55",
   "status": "proved",
   "theorems": [
    "C55_coupled",
    "C55_shifted_refuted",
    "C55_nonvacuous"
   ],
   "note": "gsBoehm and the knot vector operations belong to the core and are modelled from their documented behaviour; both patches have the same degree; C55_shifted_refuted: a second parameter interval that does not start in 0 leaves a gap in the joint knots and the result has a kink"
  },
  {
   "property": "C56",
   "status": "proved",
   "theorems": [
    "C56_partition",
    "C56_nonvacuous"
   ],
   "note": "same assumptions as C55"
  },
  {
   "property": "C57",
   "status": "proved",
   "theorems": [
    "C57_stationary",
    "C57_exact",
    "C57_exact_refuted",
    "C57_minimum_refuted",
    "C57_split_stationary",
    "C57_split_exact",
    "C57_split_refuted",
    "C57_evals",
    "C57_evalBeta",
    "C57_evalBeta_refuted",
    "C57_boundary",
    "C57_nonvacuous"
   ],
   "note": "exact real arithmetic; quadrature rule, sparse system and solver belong to the core (any solution of the equations); refuted: exactness for geometries with exact data, minimality (sign of the penalty), evalBeta as the beta of the systems (its value is not used)"
  },
  {
   "property": "C58",
   "status": "proved",
   "theorems": [
    "C58_plus_jet",
    "C58_minus_jet",
    "C58_plus_defect",
    "C58_minus_defect",
    "C58_plus_smooth",
    "C58_minus_smooth",
    "C58_meshes_refuted",
    "C58_simple_knots_refuted",
    "C58_projection",
    "C58_nonvacuous",
    "C58_projection_nonvacuous"
   ],
   "note": "the functions before projection; B-splines by the Cox-de Boor recurrence; refuted for different first elements (minus functions are not scaled) and for a simple first inner knot (knot number degree + 2)"
  },
  {
   "property": "C59",
   "status": "proved",
   "theorems": [
    "C59_transversal",
    "C59_edge",
    "C59_corner",
    "C59_smooth",
    "C59_nonvacuous"
   ],
   "note": "exact gluing data and equal plus/minus spaces at the interface are hypotheses; the projection to the spline space is C58_projection"
  },
  {
   "property": "C60",
   "status": "proved",
   "theorems": [
    "C60_data",
    "C60_kind",
    "C60_kind_refuted",
    "C60_cone_refuted",
    "C60_nonvacuous"
   ],
   "note": "the classification needs that all interfaces contain the vertex; refuted without (two half rings, cone)"
  },
  {
   "property": "C61",
   "status": "proved",
   "theorems": [
    "C61_matrix",
    "C61_columns",
    "C61_span",
    "C61_edges",
    "C61_vertex",
    "C61_tangents",
    "C61_second_refuted",
    "C61_nonvacuous"
   ],
   "note": "The kernel itself (FullPivLU) is external: any list of independent columns in the kernel. With the option second, line 280 looks up patchID instead of patchID_iFace: harmless with at most as many inner patches as boundary sides, out of range otherwise (C61_second_refuted)."
  },
  {
   "property": "C62",
   "status": "proved",
   "theorems": [
    "C62_edge",
    "C62_boundary",
    "C62_vertex",
    "C62_vertex_boundary",
    "C62_geometry",
    "C62_geometry_refuted",
    "C62_uneven_refuted",
    "C62_nonvacuous"
   ],
   "note": "reduceMultiplicity of G+Smo is external; spline spaces are taken as the piecewise polynomials with the smoothness given by the multiplicities. The inclusions fail at inner knots of the geometry (the smoothness of the plus space is demanded, its derivative has one less) and for uneven multiplicities."
  },
  {
   "property": "C63",
   "status": "proved",
   "theorems": [
    "C63_mapper",
    "C63_twice_refuted",
    "C63_nonvacuous"
   ],
   "note": "Assembles C47-C50 and C54/C55 (numbering, regions, lines, blocks, Boehm weights). Exact real arithmetic; gsWeightMapper is the list of its columns; what _setTensorMappingOfPatch reads for a patch is given with the relations between patches stated in mp_ok. False if a patch meets a special vertex twice."
  },
  {
   "property": "C64",
   "status": "proved",
   "theorems": [
    "C64_vertices",
    "C64_unity",
    "C64_refined",
    "C64_twice_refuted",
    "C64_nonvacuous"
   ],
   "note": "Uses C44 (projections). Exact real arithmetic; _indexFromVert, the mappers and the transfer matrix are given, with the relations stated in numbering and transfer; no patch meets a vertex twice. The functions not changed at a vertex must vanish near it and be smooth across its interfaces (others_ok), which the refinement keeps (C64_refined)."
  },
  {
   "property": "C65",
   "status": "proved",
   "theorems": [
    "C65_line",
    "C65_distinct",
    "C65_dpatch0",
    "C65_dpatch1",
    "C65_far",
    "C65_order_refuted",
    "C65_nonvacuous"
   ],
   "note": "The hierarchical basis (core) is given by the functions called on it; which functions are in use is the selection rule of hierarchical B-splines, stated in two_levels, dpatch0 and dpatch1. The refined box is read as box p r elements of level 0; the same degree and number of elements in both directions for the D-patch statements. The order is refuted for rows of the coarser level that leave the box."
  },
  {
   "property": "C66",
   "status": "proved",
   "theorems": [
    "C66_matrix",
    "C66_unsupported",
    "C66_unity",
    "C66_independent",
    "C66_interface",
    "C66_corner",
    "C66_inner",
    "C66_boundary2",
    "C66_boundary3",
    "C66_interior",
    "C66_boundary",
    "C66_corner1",
    "C66_tensor",
    "C66_nonvacuous"
   ],
   "note": "A basis is seen through the functions called on it (ring_like); matchWith on hierarchical bases is an oracle assumed to list the two rows (rows_match); the numbering of a finalized gsDofMapper is re-specified. The columns added at extraordinary vertices are C64."
  },
  {
   "property": "C67",
   "status": "proved",
   "theorems": [
    "C67_matrix",
    "C67_unsupported",
    "C67_unity",
    "C67_rows",
    "C67_independent",
    "C67_interface",
    "C67_corner",
    "C67_inner",
    "C67_boundary2",
    "C67_boundary3",
    "C67_sharp",
    "C67_edge",
    "C67_interior",
    "C67_boundary",
    "C67_corner1",
    "C67_tensor",
    "C67_nonvacuous"
   ],
   "note": "A basis is seen through the functions called on it (ring_like); matchWith on hierarchical bases is an oracle assumed to list the two rows (rows_match); the numbering of a finalized gsDofMapper is re-specified. The rows without entries are filled at the special vertices."
  },
  {
   "property": "C68",
   "status": "proved",
   "theorems": [
    "C68_final",
    "C68_triangle",
    "C68_affine",
    "C68_elsewhere",
    "C68_regular",
    "C68_unity",
    "C68_nonneg",
    "C68_rows",
    "C68_disjoint",
    "C68_spare",
    "C68_independent",
    "C68_lost",
    "C68_independent_refuted",
    "C68_hypotheses",
    "C68_nonvacuous"
   ],
   "note": "The refined THB patches enter through their columns, control points and transfer matrix (refinedIn, refined_ok). Independence needs at most three patches at sharp boundary vertices; C68_lost and C68_independent_refuted show that the bound cannot be dropped."
  },
  {
   "property": "C69",
   "status": "proved",
   "theorems": [
    "C69_free",
    "C69_set",
    "C69_local",
    "C69_pre",
    "C69_export",
    "C69_vertex",
    "C69_elsewhere",
    "C69_regular",
    "C69_geometry",
    "C69_planar",
    "C69_given_refuted",
    "C69_hypotheses"
   ],
   "note": "The refined patches enter through their columns, control points and transfer matrix. C69_given_refuted: the argument of _preCoefficients(patches) is ignored."
  },
  {
   "property": "C70",
   "status": "proved",
   "theorems": [
    "C70_pre",
    "C70_inner",
    "C70_vertex",
    "C70_skipped",
    "C70_smooth_refuted",
    "C70_sharp_refuted",
    "C70_nonvacuous"
   ],
   "note": "The transfer matrices of the refinement are given. C70_smooth_refuted, C70_sharp_refuted: std::count(m_C0s, pcorner) compares flags with the corner number."
  },
  {
   "property": "C71",
   "status": "proved",
   "theorems": [
    "C71_elements",
    "C71_quiet",
    "C71_inserted",
    "C71_refine",
    "C71_geometry",
    "C71_twice_refuted",
    "C71_elements_refuted",
    "C71_unrepaired_refuted",
    "C71_pending_refuted",
    "C71_nonvacuous"
   ],
   "note": "Knots are integers with even spans. Knot insertion with coefficients is the Boehm algorithm of C55, applied to rows and columns. The refutations are what the code does."
  },
  {
   "property": "C72",
   "status": "proved",
   "theorems": [
    "C72_uniform",
    "C72_uniform_geometry",
    "C72_elements",
    "C72_construct",
    "C72_c0",
    "C72_c0_refuted",
    "C72_smooth_idle",
    "C72_smooth_refuted",
    "C72_uniform_nonvacuous",
    "C72_elements_nonvacuous",
    "C72_construct_nonvacuous"
   ],
   "note": "C72_c0 and C72_smooth_idle describe the two defects; the _refuted theorems give witnesses."
  },
  {
   "property": "C73",
   "status": "proved",
   "theorems": [
    "C73_final",
    "C73_rows",
    "C73_regular",
    "C73_checked",
    "C73_tensor",
    "C73_nonvacuous"
   ],
   "note": "Combines C64 and C66. The refined bases and the transfer matrix of _makeTHB are inputs described by the hypotheses separated, transfer and the row sums. Column sums are exact in the model, so the checks pass without tolerance."
  },
  {
   "property": "C74",
   "status": "proved",
   "theorems": [
    "C74_active",
    "C74_runs",
    "C74_inner",
    "C74_step",
    "C74_check",
    "C74_round",
    "C74_grows",
    "C74_ordered",
    "C74_done",
    "C74_matched_refuted",
    "C74_suitable_refuted",
    "C74_ends_refuted",
    "C74_nonvacuous"
   ],
   "note": "The three _refuted theorems are witnesses against the stronger claims: a patch is not checked again after boxes were added to it, so interfaces may stay unmatched and inner boxes unsuitable; two patches at a vertex of valence 3 may ask for each other to be checked for ever. gsHTensorBasis is seen as a list of boxes."
  },
  {
   "property": "C75",
   "status": "proved",
   "theorems": [
    "C75_mapper",
    "C75_levels",
    "C75_numbers",
    "C75_connected",
    "C75_rows_refuted",
    "C75_corner_refuted",
    "C75_connected_refuted",
    "C75_nonvacuous"
   ],
   "note": "The sets of active functions of gsHTensorBasis (G+Smo core) are inputs; distances at special vertices are inputs as in C63. The _refuted theorems show that the conditions on rows and corners cannot be left out and that isLocallyConnected is wrong."
  },
  {
   "property": "C76",
   "status": "proved",
   "theorems": [
    "C76_functions",
    "C76_parameter",
    "C76_distance",
    "C76_symmetric",
    "C76_back",
    "C76_sides",
    "C76_distance_refuted",
    "C76_nonvacuous"
   ],
   "note": "Knots of the levels and flags of active boundary functions (gsHTensorBasis, G+Smo core) are inputs. C76_distance_refuted: findParameter reverses the knots at the upper end, getDistanceOfVertex at the lower end, so that for asymmetric knots a different number of functions is counted than was asked for."
  },
  {
   "property": "C77",
   "status": "proved",
   "theorems": [
    "C77_threads",
    "C77_matrix",
    "C77_vertex",
    "C77_edge",
    "C77_edges",
    "C77_exact",
    "C77_edge_free",
    "C77_vertex_free",
    "C77_twice",
    "C77_nonvacuous"
   ],
   "note": "Active functions, nodes, weights and values are inputs; gsDofMapper, gsSparseSystem::push (G+Smo core) are specified in the model; the linear solver is an argument assumed to solve the assembled systems; exact real arithmetic. C77_twice: m_f is never cleared, so that a second call of setG1BasisVertex throws."
  },
  {
   "property": "C78",
   "status": "proved",
   "theorems": [
    "C78_bases",
    "C78_repair",
    "C78_refine",
    "C78_refine_coefs",
    "C78_quiet",
    "C78_short",
    "C78_nonvacuous"
   ],
   "note": "gsHTensorBasis::size and refineElements_withCoefs (G+Smo core) are arguments with the hypothesis core_ok: one refinement keeps the spline and returns as many coefficients as there are functions. Bases and boxes as in C74."
  },
  {
   "property": "C79",
   "status": "proved",
   "theorems": [
    "C79_interface",
    "C79_tie_refuted",
    "C79_geometry_refuted",
    "C79_vertex",
    "C79_vertex_agree",
    "C79_vertex_tie_refuted",
    "C79_back",
    "C79_back_refuted",
    "C79_lines",
    "C79_corner",
    "C79_corner_orientation",
    "C79_side",
    "C79_side_orientation",
    "C79_pieces_refuted",
    "C79_nonvacuous"
   ],
   "note": "Interfaces with positive orientation (the negative ones are refuted in C25). The container never reverses knots although the geometry is reversed: the three refuted theorems about geometry, ties and mapping back are consequences. redn (reduceContinuity of the core) is an argument with the hypothesis reduces."
  },
  {
   "property": "C80",
   "status": "proved",
   "theorems": [
    "C80_value",
    "C80_own_refuted",
    "C80_order_refuted",
    "C80_mixed_refuted",
    "C80_outside_refuted",
    "C80_magnify",
    "C80_surf_magnify",
    "C80_surf_value",
    "C80_surf_length_refuted",
    "C80_surf_again_refuted",
    "C80_phi",
    "C80_degree",
    "C80_surf_degree",
    "C80_degree_nonvacuous",
    "C80_nonvacuous"
   ],
   "note": "Exact rationals. Degrees, knots and derivatives of the geometries at the vertex are inputs (evaluation by the core)."
  },
  {
   "property": "C81",
   "status": "proved",
   "theorems": [
    "C81_flags",
    "C81_corner",
    "C81_patch",
    "C81_select",
    "C81_functions",
    "C81_numbers",
    "C81_numbers_refuted",
    "C81_nonvacuous"
   ],
   "note": "FullPivLU is external: the test for dependent columns is an argument with its specification, kernels are lists of columns. Entries between 0 and the threshold m_zero are excluded (clean). Six functions per patch."
  },
  {
   "property": "C82",
   "status": "proved",
   "theorems": [
    "C82_data",
    "C82_conditions",
    "C82_mapper",
    "C82_numbers",
    "C82_solution",
    "C82_exact",
    "C82_values_refuted",
    "C82_errors",
    "C82_nonvacuous"
   ],
   "note": "gsExprAssembler, gsDofMapper and the solver are external: specified, the solver by the equations it solves. Nodes carry the values of the functions; the geometry map and the lists of boundary functions of gsMappedSingleBasis are arguments."
  },
  {
   "property": "C83",
   "status": "proved",
   "theorems": [
    "C83_free",
    "C83_projection",
    "C83_exact",
    "C83_interface",
    "C83_nonvacuous"
   ],
   "note": "Without the option interpolation. Quadrature nodes with the values of the functions and the solver are arguments, the solver described by the systems it solves; exactness assumes that the nodes tell splines of two layers apart."
  },
  {
   "property": "C84",
   "status": "proved",
   "theorems": [
    "C84_boxes",
    "C84_corner_boxes",
    "C84_transfer",
    "C84_rows",
    "C84_columns",
    "C84_first_step",
    "C84_init",
    "C84_init_refuted",
    "C84_nonvacuous"
   ],
   "note": "refineElements_withTransfer and transfer of the core are arguments, described by the functions they preserve; C84_init_refuted: _initTHB skips bases of other kinds with a warning."
  },
  {
   "property": "C85",
   "status": "proved",
   "theorems": [
    "C85_constructors",
    "C85_one",
    "C85_unchecked_refuted",
    "C85_unsigned_refuted",
    "C85_copy",
    "C85_copy_refuted",
    "C85_assignment",
    "C85_self_assignment",
    "C85_elevate",
    "C85_elevate_refuted",
    "C85_nonvacuous"
   ],
   "note": "The functions the constructors call are arguments, modelled in other files. Defects shown: checks ignored, no mapper after assignment, weights not copied, self assignment frees the bases, stale smoothness after degree elevation."
  },
  {
   "property": "C86",
   "status": "proved",
   "theorems": [
    "C86_projection",
    "C86_linear",
    "C86_gluing",
    "C86_vertex",
    "C86_nonvacuous"
   ],
   "note": "The solver is an argument with the hypothesis that it solves the system; alpha, beta and the functions at the vertex are arguments (the latter are modelled in C54); the option interpolation is in C87. Uses the axioms of the reals."
  },
  {
   "property": "C87",
   "status": "proved",
   "theorems": [
    "C87_interpolates",
    "C87_exact",
    "C87_edge",
    "C87_interface",
    "C87_gluing",
    "C87_vertex",
    "C87_same",
    "C87_nonvacuous",
    "C87_half_open"
   ],
   "note": "Anchors and interpolateAtAnchors of the G+Smo core are written out; values of univariate functions and the solver are arguments; unique solvability of the collocation systems (Schoenberg and Whitney) is a hypothesis. Uses the axioms of the reals."
  },
  {
   "property": "C88",
   "status": "proved",
   "theorems": [
    "C88_kind",
    "C88_single",
    "C88_finish",
    "C88_annulus_refuted",
    "C88_pillow_refuted",
    "C88_nonvacuous"
   ],
   "note": "The interfaces found by computeTopology (G+Smo core) are an argument. Refuted without the condition that the patches have no other interface."
  },
  {
   "property": "C89",
   "status": "proved",
   "theorems": [
    "C89_tensor",
    "C89_hierarchical",
    "C89_mixed",
    "C89_leak_refuted",
    "C89_nonvacuous"
   ],
   "note": "The constructors of the composite bases are arguments. That nothing is leaked is refuted for hierarchical bases: the copies whose cast to a tensor product basis fails are lost."
  },
  {
   "property": "C90",
   "status": "proved",
   "theorems": [
    "C90_bound",
    "C90_exact",
    "C90_mirror",
    "C90_count_refuted",
    "C90_flip",
    "C90_nonvacuous"
   ],
   "note": "Refuted without the condition that new knots come one by one: each old knot accounts for at most one new knot."
  }
 ]
}