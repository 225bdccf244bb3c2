# Machine-checked model of gsUnstructuredSplines

The code base (`/repo`, G+Smo module gsUnstructuredSplines) builds smooth spline
spaces on multipatch domains: D-patch, almost-C1, approximate C1, C1 on surfaces and
multi-patch B-splines with enhanced smoothness (MPBES).  Its classes are mostly
*bookkeeping*: numbering, elimination and coupling of basis functions, sparse weights,
worklists over the patch graph, permutations of coefficient grids.  This directory contains

* `properties.jsonl` – the semantic properties (C01 …),
* `rocq/theories/` – an executable Gallina model of the code plus the proofs,
* `MANIFEST.json` – which theorem settles which property,
* `seeded/LOG.jsonl` – mutation attempts on the model.

## Layout of the Coq development

| file | contents |
|------|----------|
| `*Model*.v` | definitions only: the model of the code, each definition cites file and lines |
| `*Spec*.v`  | small independent specification used in the statements (no model helpers) |
| `*Proofs*.v`, `*Lemmas*.v` | lemmas |
| `*Examples*.v`, `*Witness*.v` | concrete inputs for the non-vacuity examples and the refutations |
| `Props_*.v` | only the property theorems, each closed by `exact lemma.` with `Print Assumptions` beneath, and non-vacuity `Example`s |

A property that is false of the code has a theorem `…_refuted` with a concrete witness, and
theorems for the exact part that holds.  The status “proved” then means that the
question is settled in both directions.

## Modelling conventions

* Sizes and indices are unbounded `nat`/`Z` (index_t overflow is not modelled) unless
  the property is about wrap-around, in which case the `mod 2^64` is explicit.
* Weights are exact rationals (`Q`) or reals (`R`): floating-point rounding is not modelled;
  comparisons with a tolerance are equalities.
* A failing `GISMO_ENSURE/GISMO_ERROR/GISMO_ASSERT` or an out-of-range access is the distinct
  outcome `Err`; theorems state when it does not occur.  Release builds, in which
  GISMO_ASSERT is empty, are a separate definition where a property is about them (C21).
* Loops become structural recursion or folds; worklists become fuelled recursion
  with an explicit error outcome that theorems exclude.
* Sparse assignment `m_matrix(r,c)=w` is a last-write-wins list of entries.
* Member state (caches, flags, lists that are appended to) is an explicit state record.

## Trusted base

1. The Coq 8.16.1 kernel (`vm_compute` included; no kernel check is switched off; no plugin).
2. The axioms of the standard library listed per theorem below.  They come with `Coq.Reals`
   (`sig_forall_dec`, `sig_not_dec`, `functional_extensionality_dep`) and from classical lemmas about real functions (`classic`).
   Theorems about numberings and rational weights are closed under the global context.
   There is no axiom of this development: every assumption is a hypothesis of the theorem that uses it.
3. The faithfulness of the model to the cited lines of `/repo`.
4. The re-specification of what belongs to the G+Smo core, which is not in `/repo`:
   * gsBoxTopology, boxSide, boxCorner, patchSide, boundaryInterface (`TopoModel.v`): interfaces, boundaries, mapCorner, getCornerList;
     getEVs is arbitrary (a list of corner lists) and gsMultiPatch::computeTopology is an input;
   * gsTensorBasis: index `i + n0*j`, `boundaryOffset`, `functionAtCorner`, `matchWith` for tensor bases;
   * hierarchical bases (gsTHBSplineBasis) through the functions called on them: C17, C18, C64 and C66 assume the ring
     arrangement `ring_like` near corners, C65 proves it for the selection rules of hierarchical B-splines with one refined box at
     each corner; `matchWith` on hierarchical bases is an oracle with the hypothesis `rows_match`;
   * gsDofMapper: eliminate, match, finalize (free first, then coupled groups, then eliminated), index, is_free;
   * gsKnotVector: multiplicities, insertion, reversal, affine change; `reduceMultiplicity(n)` is given by `redn`;
   * gsBoehm (knot insertion) from its documented behaviour;
   * B-splines: the recurrence of Cox and de Boor, derivatives from the right; spline spaces are the piecewise polynomials with
     the smoothness of the multiplicities (Curry–Schoenberg is not proved);
   * gsWeightMapper: the list of its columns; gsGaussRule: arbitrary nodes and weights;
   * linear solvers: a solution is any vector satisfying the equations (SimplicialLDLT and the like), a kernel is any list of
     independent vectors in the kernel (FullPivLU), the 3×3 QR solve is Cramer's rule;
   * geometry maps are functions with given derivatives.

## Theorems, axioms and remarks per property

Axioms as printed by `Print Assumptions` beneath each theorem: “none” means *Closed under the global context*; otherwise the letters stand for
D = `ClassicalDedekindReals.sig_forall_dec`, N = `ClassicalDedekindReals.sig_not_dec`, F = `FunctionalExtensionality.functional_extensionality_dep`, C = `Classical_Prop.classic`.

| id | property | theorems (file) | axioms | remarks |
|----|----------|-----------------|--------|---------|
| C01 | Predicted number of smooth basis functions is the number actually produced (gsSmoothInterfaces) | `C01_predicted_size_is_free_size` (Props_Smooth.v) | none |  |
| C02 | compute() handles every side, every vertex and every basis function (gsSmoothInterfaces) | `C02_everything_handled` (Props_Smooth.v) | none |  |
| C03 | Partition of unity of the interface-smooth basis | `C03_columns_sum_to_one` (Props_Smooth.v) | none |  |
| C04 | Smoothing matrix is non-negative and its rows are linearly independent | `C04_entries_between_zero_and_one`, `C04_smooth_functions_independent` (Props_Smooth.v) | none |  |
| C05 | Exported geometry is C1 across interfaces | `C05_C1_between_the_ends`, `C05_C1_at_the_ends` (Props_Smooth.v) | none | tensor bases with the Greville-uniform midpoint form of C1; exclusions as in the property text |
| C06 | Exported geometry is continuous at every vertex | `C06_continuous_at_smooth_vertices`, `C06_continuous_at_sharp_vertices_refuted`, `C06_continuous_at_irregular_boundary_vertices_refuted` (Props_Smooth.v) | none | The property as stated is false of the code: refuted by two machine-checked witnesses (sharp vertex, boundary vertex of valence 3); the positive part is proved for all other vertices. |
| C07 | Indices counted from a corner are valid, injective and symmetric | `C07_index_from_corner_is_valid`, `C07_index_determines_steps`, `C07_sides_symmetric`, `C07_origin_is_corner_function`, `C07_index_from_two_sides` (Props_Index.v) | none | tensor bases; hierarchical bases: see C65 |
| C08 | A corner combined with a side it does not touch is rejected | `C08_foreign_side_rejected`, `C08_out_of_range_rejected`, `C08_origin_accepted_on_any_side` (Props_Index.v) | none |  |
| C09 | Side and corner numbers identify sides and corners | `C09_side_numbers_injective`, `C09_corner_numbers_injective`, `C09_side_numbers_in_range`, `C09_side_numbers_onto`, `C09_corner_numbers_in_range`, `C09_corner_numbers_onto`, `C09_side_array_has_right_length`, `C09_marks_are_independent` (Props_Index.v) | none |  |
| C10 | Selecting the lowest indices and removing them are complementary | `C10_lowest_and_rest`, `C10_any_sorting_algorithm`, `C10_too_many_removed`, `C10_too_many_selected`, `C10_lowest_corners`, `C10_lowest_corners_refuted` (Props_Base.v) | none | Indices: proved. Corner selection compares patches only: proved for distinct patches, refuted otherwise. |
| C11 | Sharp-corner detection marks whole vertices | `C11_sharp_corners`, `C11_flags_admissible` (Props_Base.v) | none |  |
| C12 | Patch blocks of exported coefficients tile the global coefficient vector | `C12_blocks_tile`, `C12_each_function_reads_its_own_row` (Props_Base.v) | none |  |
| C13 | Coefficients exported without recomputation are those last computed | `C13_history_is_fresh`, `C13_history_runs`, `C13_recomputation_ignores_cache`, `C13_export_to_patches`, `C13_stale_cache_refuted` (Props_Base.v) | none | Histories of exportPatch: proved. After exportToPatches of other patches exportPatch(p,false) is stale: refuted. |
| C14 | compute() may be called repeatedly | `C14_result_does_not_depend_on_state`, `C14_second_call_changes_nothing`, `C14_bases_appended_refuted` (Props_Base.v) | none | Proved for gsSmoothInterfaces; refuted for the base implementation and gsDPatch, whose bases are appended. |
| C15 | D-patch projection matrix reproduces constants | `C15_rows_sum_to_one`, `C15_partition_of_unity_kept`, `C15_unknown_option_is_an_error` (Props_Pi.v) | DNCF | real arithmetic |
| C16 | The Pi option does what its documentation says | `C16_documented_meaning_refuted`, `C16_exchanged_meaning` (Props_Pi.v) | DNCF | False as documented, for every valence >= 3: the two option values are exchanged; the exchanged statement is proved. |
| C17 | D-patch: predicted size equals number of free functions | `C17_predicted_size_is_free_size`, `C17_unsupported_vertex_is_an_error`, `C17_sharp_vertices_refuted`, `C17_tensor_bases_admissible` (Props_Ring.v) | none | Bases are given by their size, boundary rows, corner functions and _indexFromVert, with the ring arrangement of RingSpec.v assumed (proved for tensor bases). A sharp boundary vertex of valence > 3 is an error too, so the property's restriction to smooth vertices is refuted. |
| C18 | Almost-C1: predicted size equals number of free functions | `C18_predicted_size_is_free_size`, `C18_unsupported_vertex_is_an_error`, `C18_interior_valence_two_refuted` (Props_Ring.v) | none | Interior vertices of valence 1 and 2 are an error; all other topologies proved. Same assumption on the bases as C17. |
| C19 | Almost-C1 triangle weights are barycentric | `C19_planar_triangle`, `C19_surface_triangle`, `C19_degenerate_is_an_error`, `C19_other_dimensions_refused`, `C19_weights_written`, `C19_partition_of_unity_kept` (Props_Triangle.v) | DNCF: C19_planar_triangle, C19_surface_triangle, C19_degenerate_is_an_error, C19_other_dimensions_refused; D: C19_weights_written; DF: C19_partition_of_unity_kept | Real arithmetic; the QR solve is Cramer's rule; points and normals of the geometry are inputs. On surfaces the combination is the foot of the control point on the tangent plane. |
| C20 | Rotation between two directions is a rotation | `C20_rotation_of_directions`, `C20_opposite_directions_refuted` (Props_Triangle.v) | DNCF | Opposite directions give minus the identity (determinant -1): refuted there; proved for all other pairs. |
| C21 | Refinement around extraordinary vertices terminates and treats each corner once | `C21_refinement_dpatch`, `C21_refinement_almost`, `C21_fuel_does_not_matter`, `C21_number_of_elements`, `C21_too_few_elements_rejected`, `C21_release_build_refuted`, `C21_special_vertices`, `C21_special_vertices_once` (Props_Ref.v) | none | Termination, exactly the necessary corners, each once, boxes inside. Start lists of gsDPatch (getEVs, G+Smo core) are arbitrary. Without the assertion of gsDPatch (release builds) boxes may leave the patch: refuted. |
| C22 | Re-parameterising a patch and mapping back is the identity | `C22_back_is_identity`, `C22_back_restores_bases`, `C22_back_is_identity_G1` (Props_Reparam.v) | none |  |
| C23 | Mapping back inverts any sequence of re-parameterisations | `C23_any_history_refuted`, `C23_two_swaps_refuted`, `C23_rotations_in_range` (Props_Reparam.v) | none | False as stated: refuted by witnesses; the histories for which it holds are characterised by C23_rotations_in_range. |
| C24 | The side map follows the geometry | `C24_side_map_follows_geometry`, `C24_two_rotations_refuted` (Props_Reparam.v) | none | proved for the admissible histories of the property; shown false beyond them |
| C25 | Edge and vertex constructions bring the requested side/corner to the canonical place | `C25_boundary_side_goes_west`, `C25_interface_sides`, `C25_interface_positions_match`, `C25_vertex_goes_south_west`, `C25_vertex_goes_south_west_G1`, `C25_negative_interface_refuted` (Props_Reparam.v) | none | Boundary sides and vertices: both orientations. Interfaces: positive orientation proved; for negative orientation the property is refuted (not reachable through gsApproxC1Spline/gsC1SurfSpline, which fix orientations first). |
| C26 | Rows reserved equal rows filled (gsApproxC1Spline) | `C26_rows`, `C26_small_patch_refuted`, `C26_small_patch_out_of_range_refuted` (Props_C1.v) | none | geometry without inner knots, at least four functions per direction; refuted for three |
| C27 | Coefficients of each function land in the column block of its patch and space | `C27_coefficients`, `C27_columns_disjoint` (Props_C1.v) | none |  |
| C28 | Container basis concatenates its pieces | `C28_concatenation`, `C28_degree` (Props_Container.v) | none |  |
| C29 | Boundary functions of a container basis belong to the right pieces | `C29_boundary_functions`, `C29_boundary_functions_one_piece`, `C29_corner_function`, `C29_corner_function_one_piece` (Props_Container.v) | none | one or nine pieces |
| C30 | Support of a container basis function is the support of that function | `C30_support`, `C30_support_refuted` (Props_Container.v) | none | support(i) only works for the first piece |
| C31 | Local/global numbering of a multipatch B-spline basis is a bijection | `C31_numbering` (Props_Map.v) | none |  |
| C32 | Block enumeration visits each point exactly once | `C32_block_points` (Props_Map.v) | none |  |
| C33 | Every patch-local function is assigned by exactly one region | `C33_regions`, `C33_halves`, `C33_regions_refuted` (Props_Map.v) | none | holds when the corner distances fit; functions are added twice at special boundary vertices with a distance above the degree |
| C34 | Edge weights behave like a map | `C34_weights`, `C34_copy_refuted` (Props_Vertex.v) | none | All histories of set operations. The copy constructor drops the weights (refuted separately). |
| C35 | Marking a vertex special marks all its corners and nothing else | `C35_initial`, `C35_special`, `C35_succeeds` (Props_Vertex.v) | none | Any number of calls; initial special vertices included. |
| C36 | Distances of two vertices on an edge never overlap | `C36_values`, `C36_short_sides_refuted` (Props_Vertex.v) | none | Holds when twice the degree fits on the side; refuted otherwise (unsigned subtraction). |
| C37 | The control mesh joins exactly the neighbouring functions | `C37_joined`, `C37_single`, `C37_symmetric`, `C37_irreflexive`, `C37_edges` (Props_Conn.v) | none | Tensor-product bases; the hierarchical isLocallyConnected is not modelled. |
| C38 | repairPatches makes interface knots agree | `C38_all`, `C38_from_patch`, `C38_multiplicity_refuted`, `C38_degree_refuted` (Props_Repair.v) | none | Termination, agreement of the knots and exactness (least set of knots closed under the interfaces) for simple interior knots and equal degrees; refuted with a double knot and with different degrees. |
| C39 | Distances stored for an interface are those of its own two corners | `C39_own_corners`, `C39_second_corner_refuted`, `C39_parameter`, `C39_from_corner_refuted` (Props_Vertex.v) | none | The claim is false for the second corner: its parameter is looked up from the first corner. Proved for the first corner, and for the second with symmetric knots. |
| C40 | C1 gluing functions satisfy the gluing condition | `C40_trace_jet`, `C40_normal_jet`, `C40_glued`, `C40_glued_normal`, `C40_planar_trace`, `C40_planar_normal`, `C40_gradient_unique`, `C40_surface_trace`, `C40_surface_normal` (Props_Gluing.v) | DF: C40_trace_jet, C40_normal_jet, C40_glued, C40_glued_normal, C40_planar_normal, C40_gradient_unique; DNF: C40_planar_trace, C40_surface_trace, C40_surface_normal | Over the reals, with B-splines given by the Cox-de Boor recurrence; derivatives are from the right. The projection of the gluing data and of the functions to spline spaces (an external linear solve) is not part of the model. |
| C41 | Rotation to the tangent plane is a rotation | `C41_rotation`, `C41_orthogonal_iff`, `C41_upright`, `C41_upside_down_refuted`, `C41_rotation_refuted`, `C41_coefs` (Props_Rot.v) | DNF: C41_rotation, C41_orthogonal_iff, C41_upright, C41_upside_down_refuted, C41_rotation_refuted; DF: C41_coefs | The original claim (a rotation for every normal) is refuted; the theorems say exactly for which normals it holds. |
| C42 | Mapping a re-parameterised geometry back restores its knots | `C42_geometry_comes_back_symmetric`, `C42_geometry_comes_back_refuted` (Props_Reparam.v) | none | False as stated (asymmetric knots); proved for symmetric knot vectors. |
| C43 | Exporting to patches is a projection | `C43_smooth_patches_reproduced`, `C43_export_is_projection` (Props_Base.v) | none |  |
| C44 | Projected control points around an extraordinary vertex form one planar star | `C44_projected_points_form_a_planar_star` (Props_Pi.v) | DNCF | real arithmetic |
| C45 | Re-parameterisation does not change the surface | `C45_surface_unchanged`, `C45_tables_keep_the_surface`, `C45_surface_unchanged_G1_symmetric`, `C45_swap_G1`, `C45_surface_unchanged_G1_refuted` (Props_Surface.v) | none | gsPatchReparameterized: proved. gsG1AuxiliaryPatch: proved for symmetric knots, refuted in general (knots are not reversed). B-splines by Cox-de Boor; parameters on knot lines excluded. |
| C46 | Rows reserved equal rows filled (gsC1SurfSpline) | `C46_rows`, `C46_rows_only_if`, `C46_size_check_refuted` (Props_C1.v) | none | exact condition; the check made by the code is not sufficient |
| C47 | Coefficients of gsC1SurfSpline functions land in the row of the function and the columns of the patch | `C47_coefficients` (Props_C1.v) | none |  |
| C48 | Each function of a patch is treated according to its position | `C48_actions`, `C48_actions_refuted` (Props_MapTravel.v) | none | for equal degrees in both directions; with different degrees the lengths of blocks are interchanged |
| C49 | Lines across an interface are the same from both sides | `C49_lines`, `C49_self_interface_refuted` (Props_MapTravel.v) | none | for interfaces between different patches; self-interfaces add the line twice |
| C50 | Blocks around a regular vertex are the same from all four patches | `C50_block`, `C50_same_block`, `C50_mirrored_refuted` (Props_MapTravel.v) | none | fails when opposite sides are joined in reverse orientation |
| C51 | Functions on the interfaces at a vertex | `C51_interface_indices`, `C51_corner_functions` (Props_IfaceIndex.v) | none | tensor bases |
| C52 | Making a vertex C0 sets the distance along its sides | `C52_distances`, `C52_other_interfaces_refuted` (Props_Vertex.v) | none | Other interfaces at the vertex keep their old distance (refuted for them). |
| C53 | Distances counted in functions and in parameters agree | `C53_round_trip`, `C53_sides_agree`, `C53_invariant`, `C53_counts`, `C53_shifted_refuted`, `C53_multiple_refuted` (Props_Vertex.v) | none | Open knot vectors on [0,L] with simple interior knots; refuted for shifted intervals and multiple knots. |
| C54 | Vertex functions interpolate a quadratic and glue smoothly | `C54_edge`, `C54_transversal_exists`, `C54_corner`, `C54_plus_unique`, `C54_minus_unique`, `C54_glued`, `C54_planar`, `C54_nonvacuous` (Props_Vfun.v) | DF: C54_edge, C54_transversal_exists, C54_corner, C54_plus_unique, C54_minus_unique, C54_glued; DNF: C54_planar, C54_nonvacuous | Real arithmetic is exact; the derivatives of the geometry at the vertex and the gluing data are given. C54_glued assumes that the transversal vectors of the two patches agree; C54_planar proves it for exact gluing data of planar geometries. |
| C55 | Functions coupled across an interface are smooth | `C55_coupled`, `C55_shifted_refuted`, `C55_nonvacuous` (Props_Boehm.v) | DF | gsBoehm and the knot vector operations belong to the core and are modelled from their documented behaviour; both patches have the same degree; C55_shifted_refuted: a second parameter interval that does not start in 0 leaves a gap in the joint knots and the result has a kink |
| C56 | Coupling weights form a partition of unity | `C56_partition`, `C56_nonvacuous` (Props_Boehm.v) | DF | same assumptions as C55 |
| C57 | Gluing data on surfaces are stationary points | `C57_stationary`, `C57_exact`, `C57_exact_refuted`, `C57_minimum_refuted`, `C57_split_stationary`, `C57_split_exact`, `C57_split_refuted`, `C57_evals`, `C57_evalBeta`, `C57_evalBeta_refuted`, `C57_boundary`, `C57_nonvacuous` (Props_SurfGD.v) | DF | exact real arithmetic; quadrature rule, sparse system and solver belong to the core (any solution of the equations); refuted: exactness for geometries with exact data, minimality (sign of the penalty), evalBeta as the beta of the systems (its value is not used) |
| C58 | Edge functions on surfaces fit together | `C58_plus_jet`, `C58_minus_jet`, `C58_plus_defect`, `C58_minus_defect`, `C58_plus_smooth`, `C58_minus_smooth`, `C58_meshes_refuted`, `C58_simple_knots_refuted`, `C58_projection`, `C58_nonvacuous`, `C58_projection_nonvacuous` (Props_SurfGD.v) | DF | the functions before projection; B-splines by the Cox-de Boor recurrence; refuted for different first elements (minus functions are not scaled) and for a simple first inner knot (knot number degree + 2) |
| C59 | Surface vertex functions interpolate quadratics and glue smoothly | `C59_transversal`, `C59_edge`, `C59_corner`, `C59_smooth`, `C59_nonvacuous` (Props_SurfV.v) | DF | exact gluing data and equal plus/minus spaces at the interface are hypotheses; the projection to the spline space is C58_projection |
| C60 | Each patch at a vertex gets the gluing data of its own edges | `C60_data`, `C60_kind`, `C60_kind_refuted`, `C60_cone_refuted`, `C60_nonvacuous` (Props_SurfV.v) | D: C60_data, C60_kind_refuted, C60_cone_refuted; none: C60_kind; DF: C60_nonvacuous | the classification needs that all interfaces contain the vertex; refuted without (two half rings, cone) |
| C61 | Vertex functions at the boundary are combined so that those kept vanish there | `C61_matrix`, `C61_columns`, `C61_span`, `C61_edges`, `C61_vertex`, `C61_tangents`, `C61_second_refuted`, `C61_nonvacuous` (Props_Kern.v) | D: C61_matrix, C61_second_refuted; DF: C61_columns, C61_span, C61_edges, C61_vertex, C61_tangents, C61_nonvacuous | The kernel itself (FullPivLU) is external: any list of independent columns in the kernel. With the option second, line 280 looks up patchID instead of patchID_iFace: harmless with at most as many inner patches as boundary sides, out of range otherwise (C61_second_refuted). |
| C62 | The spaces along edges and at vertices contain the functions to be represented | `C62_edge`, `C62_boundary`, `C62_vertex`, `C62_vertex_boundary`, `C62_geometry`, `C62_geometry_refuted`, `C62_uneven_refuted`, `C62_nonvacuous` (Props_Space.v) | DF: C62_edge, C62_boundary, C62_vertex, C62_vertex_boundary, C62_geometry_refuted, C62_uneven_refuted, C62_nonvacuous; none: C62_geometry | reduceMultiplicity of G+Smo is external; spline spaces are taken as the piecewise polynomials with the smoothness given by the multiplicities. The inclusions fail at inner knots of the geometry (the smoothness of the plus space is demanded, its derivative has one less) and for uneven multiplicities. |
| C63 | The map of the basis with enhanced smoothness: rows sum to one, columns are independent | `C63_mapper`, `C63_twice_refuted`, `C63_nonvacuous` (Props_MapAll.v) | DF | Assembles C47-C50 and C54/C55 (numbering, regions, lines, blocks, Boehm weights). Exact real arithmetic; gsWeightMapper is the list of its columns; what _setTensorMappingOfPatch reads for a patch is given with the relations between patches stated in mp_ok. False if a patch meets a special vertex twice. |
| C64 | At extraordinary vertices all functions get the D-patch structure and still sum to one | `C64_vertices`, `C64_unity`, `C64_refined`, `C64_twice_refuted`, `C64_nonvacuous` (Props_Ev.v) | DNCF: C64_vertices, C64_unity, C64_twice_refuted, C64_nonvacuous; DF: C64_refined | Uses C44 (projections). Exact real arithmetic; _indexFromVert, the mappers and the transfer matrix are given, with the relations stated in numbering and transfer; no patch meets a vertex twice. The functions not changed at a vertex must vanish near it and be smooth across its interfaces (others_ok), which the refinement keeps (C64_refined). |
| C65 | Functions of a hierarchical basis are counted from a corner in the order of their distance | `C65_line`, `C65_distinct`, `C65_dpatch0`, `C65_dpatch1`, `C65_far`, `C65_order_refuted`, `C65_nonvacuous` (Props_Hier.v) | none | The hierarchical basis (core) is given by the functions called on it; which functions are in use is the selection rule of hierarchical B-splines, stated in two_levels, dpatch0 and dpatch1. The refined box is read as box p r elements of level 0; the same degree and number of elements in both directions for the D-patch statements. The order is refuted for rows of the coarser level that leave the box. |
| C66 | D-patch matrix before the extraordinary vertices: unit column sums, independent rows and averaged control points | `C66_matrix`, `C66_unsupported`, `C66_unity`, `C66_independent`, `C66_interface`, `C66_corner`, `C66_inner`, `C66_boundary2`, `C66_boundary3`, `C66_interior`, `C66_boundary`, `C66_corner1`, `C66_tensor`, `C66_nonvacuous` (Props_Dp.v) | none | A basis is seen through the functions called on it (ring_like); matchWith on hierarchical bases is an oracle assumed to list the two rows (rows_match); the numbering of a finalized gsDofMapper is re-specified. The columns added at extraordinary vertices are C64. |
| C67 | AlmostC1 matrix before the special vertices: unit column sums, independent rows and averaged control points | `C67_matrix`, `C67_unsupported`, `C67_unity`, `C67_rows`, `C67_independent`, `C67_interface`, `C67_corner`, `C67_inner`, `C67_boundary2`, `C67_boundary3`, `C67_sharp`, `C67_edge`, `C67_interior`, `C67_boundary`, `C67_corner1`, `C67_tensor`, `C67_nonvacuous` (Props_Ac.v) | none | A basis is seen through the functions called on it (ring_like); matchWith on hierarchical bases is an oracle assumed to list the two rows (rows_match); the numbering of a finalized gsDofMapper is re-specified. The rows without entries are filled at the special vertices. |
| C68 | AlmostC1 special vertices: planar control points, unit column sums and independence unless a sharp vertex has more than three patches | `C68_final`, `C68_triangle`, `C68_affine`, `C68_elsewhere`, `C68_regular`, `C68_unity`, `C68_nonneg`, `C68_rows`, `C68_disjoint`, `C68_spare`, `C68_independent`, `C68_lost`, `C68_independent_refuted`, `C68_hypotheses`, `C68_nonvacuous` (Props_Ac2.v) | DNCF: C68_final, C68_triangle, C68_affine, C68_elsewhere, C68_regular, C68_unity, C68_nonneg, C68_independent, C68_lost, C68_independent_refuted; none: C68_rows, C68_disjoint, C68_spare, C68_nonvacuous; DF: C68_hypotheses | The refined THB patches enter through their columns, control points and transfer matrix (refinedIn, refined_ok). Independence needs at most three patches at sharp boundary vertices; C68_lost and C68_independent_refuted show that the bound cannot be dropped. |
| C69 | AlmostC1 exports the refined geometry unchanged when it is flat at the special vertices | `C69_free`, `C69_set`, `C69_local`, `C69_pre`, `C69_export`, `C69_vertex`, `C69_elsewhere`, `C69_regular`, `C69_geometry`, `C69_planar`, `C69_given_refuted`, `C69_hypotheses` (Props_Pre.v) | D: C69_free; none: C69_set; DF: C69_local; DNCF: C69_pre, C69_export, C69_vertex, C69_elsewhere, C69_regular, C69_geometry, C69_planar, C69_given_refuted, C69_hypotheses | The refined patches enter through their columns, control points and transfer matrix. C69_given_refuted: the argument of _preCoefficients(patches) is ignored. |
| C70 | D-Patch coefficients reproduce the refined geometry and correct the boundary vertices of three patches | `C70_pre`, `C70_inner`, `C70_vertex`, `C70_skipped`, `C70_smooth_refuted`, `C70_sharp_refuted`, `C70_nonvacuous` (Props_DpPre.v) | none | The transfer matrices of the refinement are given. C70_smooth_refuted, C70_sharp_refuted: std::count(m_C0s, pcorner) compares flags with the corner number. |
| C71 | Refining a patch of gsMPBESBSplineBasis by boxes: knots inserted, interfaces matched, surface unchanged | `C71_elements`, `C71_quiet`, `C71_inserted`, `C71_refine`, `C71_geometry`, `C71_twice_refuted`, `C71_elements_refuted`, `C71_unrepaired_refuted`, `C71_pending_refuted`, `C71_nonvacuous` (Props_Mref.v) | DF: C71_elements, C71_geometry, C71_unrepaired_refuted, C71_pending_refuted; none: C71_quiet, C71_inserted, C71_refine, C71_twice_refuted, C71_elements_refuted; D: C71_nonvacuous | Knots are integers with even spans. Knot insertion with coefficients is the Boehm algorithm of C55, applied to rows and columns. The refutations are what the code does. |
| C72 | Refining all patches and constructing a gsMPBESSpline keep the surfaces | `C72_uniform`, `C72_uniform_geometry`, `C72_elements`, `C72_construct`, `C72_c0`, `C72_c0_refuted`, `C72_smooth_idle`, `C72_smooth_refuted`, `C72_uniform_nonvacuous`, `C72_elements_nonvacuous`, `C72_construct_nonvacuous` (Props_Mref.v) | none: C72_uniform, C72_c0, C72_smooth_idle, C72_uniform_nonvacuous; DF: C72_uniform_geometry, C72_elements, C72_construct, C72_c0_refuted, C72_smooth_refuted; D: C72_elements_nonvacuous, C72_construct_nonvacuous | C72_c0 and C72_smooth_idle describe the two defects; the _refuted theorems give witnesses. |
| C73 | gsDPatch from the topology to the final matrix | `C73_final`, `C73_rows`, `C73_regular`, `C73_checked`, `C73_tensor`, `C73_nonvacuous` (Props_DpEv.v) | DNCF: C73_final, C73_regular, C73_checked, C73_nonvacuous; none: C73_rows, C73_tensor | Combines C64 and C66. The refined bases and the transfer matrix of _makeTHB are inputs described by the hypotheses separated, transfer and the row sums. Column sums are exact in the model, so the checks pass without tolerance. |
| C74 | Repairing the patches of a hierarchical multi-patch basis | `C74_active`, `C74_runs`, `C74_inner`, `C74_step`, `C74_check`, `C74_round`, `C74_grows`, `C74_ordered`, `C74_done`, `C74_matched_refuted`, `C74_suitable_refuted`, `C74_ends_refuted`, `C74_nonvacuous` (Props_Hb.v) | none | The three _refuted theorems are witnesses against the stronger claims: a patch is not checked again after boxes were added to it, so interfaces may stay unmatched and inner boxes unsuitable; two patches at a vertex of valence 3 may ask for each other to be checked for ever. gsHTensorBasis is seen as a list of boxes. |
| C75 | The map of a multi-patch basis of hierarchical splines | `C75_mapper`, `C75_levels`, `C75_numbers`, `C75_connected`, `C75_rows_refuted`, `C75_corner_refuted`, `C75_connected_refuted`, `C75_nonvacuous` (Props_HbMap.v) | DF: C75_mapper, C75_levels, C75_rows_refuted, C75_corner_refuted, C75_connected_refuted, C75_nonvacuous; D: C75_numbers, C75_connected | The sets of active functions of gsHTensorBasis (G+Smo core) are inputs; distances at special vertices are inputs as in C63. The _refuted theorems show that the conditions on rows and corners cannot be left out and that isLocallyConnected is wrong. |
| C76 | Distances along interfaces of hierarchical bases | `C76_functions`, `C76_parameter`, `C76_distance`, `C76_symmetric`, `C76_back`, `C76_sides`, `C76_distance_refuted`, `C76_nonvacuous` (Props_HbDist.v) | none | Knots of the levels and flags of active boundary functions (gsHTensorBasis, G+Smo core) are inputs. C76_distance_refuted: findParameter reverses the knots at the upper end, getDistanceOfVertex at the lower end, so that for asymmetric knots a different number of functions is counted than was asked for. |
| C77 | Least squares systems of the C1 construction on surfaces | `C77_threads`, `C77_matrix`, `C77_vertex`, `C77_edge`, `C77_edges`, `C77_exact`, `C77_edge_free`, `C77_vertex_free`, `C77_twice`, `C77_nonvacuous` (Props_Asm.v) | DF: C77_threads, C77_matrix, C77_vertex, C77_edge, C77_edges, C77_exact, C77_nonvacuous; none: C77_edge_free, C77_vertex_free; D: C77_twice | Active functions, nodes, weights and values are inputs; gsDofMapper, gsSparseSystem::push (G+Smo core) are specified in the model; the linear solver is an argument assumed to solve the assembled systems; exact real arithmetic. C77_twice: m_f is never cleared, so that a second call of setG1BasisVertex throws. |
| C78 | Refining and repairing hierarchical bases with coefficients | `C78_bases`, `C78_repair`, `C78_refine`, `C78_refine_coefs`, `C78_quiet`, `C78_short`, `C78_nonvacuous` (Props_HbCoef.v) | none | gsHTensorBasis::size and refineElements_withCoefs (G+Smo core) are arguments with the hypothesis core_ok: one refinement keeps the spline and returns as many coefficients as there are functions. Bases and boxes as in C74. |
| C79 | Spaces both patches of an interface work with | `C79_interface`, `C79_tie_refuted`, `C79_geometry_refuted`, `C79_vertex`, `C79_vertex_agree`, `C79_vertex_tie_refuted`, `C79_back`, `C79_back_refuted`, `C79_lines`, `C79_corner`, `C79_corner_orientation`, `C79_side`, `C79_side_orientation`, `C79_pieces_refuted`, `C79_nonvacuous` (Props_IfSpace.v) | DF: C79_interface, C79_tie_refuted, C79_vertex, C79_vertex_agree, C79_nonvacuous; none: C79_geometry_refuted, C79_vertex_tie_refuted, C79_back, C79_back_refuted, C79_lines, C79_corner, C79_corner_orientation, C79_side, C79_side_orientation, C79_pieces_refuted | Interfaces with positive orientation (the negative ones are refuted in C25). The container never reverses knots although the geometry is reversed: the three refuted theorems about geometry, ties and mapping back are consequences. redn (reduceContinuity of the core) is an argument with the hypothesis reduces. |
| C80 | Scaling of the data prescribed at vertices | `C80_value`, `C80_own_refuted`, `C80_order_refuted`, `C80_mixed_refuted`, `C80_outside_refuted`, `C80_magnify`, `C80_surf_magnify`, `C80_surf_value`, `C80_surf_length_refuted`, `C80_surf_again_refuted`, `C80_phi`, `C80_degree`, `C80_surf_degree`, `C80_degree_nonvacuous`, `C80_nonvacuous` (Props_Sigma.v) | none | Exact rationals. Degrees, knots and derivatives of the geometries at the vertex are inputs (evaluation by the core). |
| C81 | Systems of one patch at a vertex on the boundary | `C81_flags`, `C81_corner`, `C81_patch`, `C81_select`, `C81_functions`, `C81_numbers`, `C81_numbers_refuted`, `C81_nonvacuous` (Props_BSys.v) | none: C81_flags; DF: C81_corner, C81_patch, C81_select, C81_functions, C81_numbers, C81_numbers_refuted, C81_nonvacuous | FullPivLU is external: the test for dependent columns is an argument with its specification, kernels are lists of columns. Entries between 0 and the threshold m_zero are excluded (clean). Six functions per patch. |
| C82 | Solver of the biharmonic equation: data, numbering, boundary projection, solution and errors | `C82_data`, `C82_conditions`, `C82_mapper`, `C82_numbers`, `C82_solution`, `C82_exact`, `C82_values_refuted`, `C82_errors`, `C82_nonvacuous` (Props_Bih.v) | DNF: C82_data, C82_errors; none: C82_conditions, C82_mapper, C82_numbers; DF: C82_solution, C82_exact, C82_values_refuted, C82_nonvacuous | gsExprAssembler, gsDofMapper and the solver are external: specified, the solver by the equations it solves. Nodes carry the values of the functions; the geometry map and the lists of boundary functions of gsMappedSingleBasis are arguments. |
| C83 | Projection of the functions at an edge onto the two layers of the edge piece | `C83_free`, `C83_projection`, `C83_exact`, `C83_interface`, `C83_nonvacuous` (Props_Edge.v) | none: C83_free; DF: C83_projection, C83_exact, C83_interface, C83_nonvacuous | Without the option interpolation. Quadrature nodes with the values of the functions and the solver are arguments, the solver described by the systems it solves; exactness assumes that the nodes tell splines of two layers apart. |
| C84 | Hierarchical bases, refinement boxes and transfer matrix around extraordinary vertices | `C84_boxes`, `C84_corner_boxes`, `C84_transfer`, `C84_rows`, `C84_columns`, `C84_first_step`, `C84_init`, `C84_init_refuted`, `C84_nonvacuous` (Props_Thb.v) | DF: C84_boxes, C84_transfer, C84_rows, C84_columns, C84_nonvacuous; none: C84_corner_boxes, C84_first_step, C84_init, C84_init_refuted | refineElements_withTransfer and transfer of the core are arguments, described by the functions they preserve; C84_init_refuted: _initTHB skips bases of other kinds with a warning. |
| C85 | Constructors, copies, assignment and degree elevation of composite bases | `C85_constructors`, `C85_one`, `C85_unchecked_refuted`, `C85_unsigned_refuted`, `C85_copy`, `C85_copy_refuted`, `C85_assignment`, `C85_self_assignment`, `C85_elevate`, `C85_elevate_refuted`, `C85_nonvacuous` (Props_Obj.v) | none | The functions the constructors call are arguments, modelled in other files. Defects shown: checks ignored, no mapper after assignment, weights not copied, self assignment frees the bases, stale smoothness after degree elevation. |
| C86 | Projection of the gluing data and of the functions at a vertex | `C86_projection`, `C86_linear`, `C86_gluing`, `C86_vertex`, `C86_nonvacuous` (Props_Proj.v) | DF | The solver is an argument with the hypothesis that it solves the system; alpha, beta and the functions at the vertex are arguments (the latter are modelled in C54); the option interpolation is in C87. Uses the axioms of the reals. |
| C87 | Interpolation of the functions at edges and vertices | `C87_interpolates`, `C87_exact`, `C87_edge`, `C87_interface`, `C87_gluing`, `C87_vertex`, `C87_same`, `C87_nonvacuous`, `C87_half_open` (Props_Interp.v) | DF | Anchors and interpolateAtAnchors of the G+Smo core are written out; values of univariate functions and the solver are arguments; unique solvability of the collocation systems (Schoenberg and Whitney) is a hypothesis. Uses the axioms of the reals. |
| C88 | Internal vertices are recognised by counting interfaces | `C88_kind`, `C88_single`, `C88_finish`, `C88_annulus_refuted`, `C88_pillow_refuted`, `C88_nonvacuous` (Props_Kind.v) | none | The interfaces found by computeTopology (G+Smo core) are an argument. Refuted without the condition that the patches have no other interface. |
| C89 | The composite basis matches the bases of the patches | `C89_tensor`, `C89_hierarchical`, `C89_mixed`, `C89_leak_refuted`, `C89_nonvacuous` (Props_Util.v) | none | The constructors of the composite bases are arguments. That nothing is leaked is refuted for hierarchical bases: the copies whose cast to a tensor product basis fails are lost. |
| C90 | The unused helpers of the MPBES classes | `C90_bound`, `C90_exact`, `C90_mirror`, `C90_count_refuted`, `C90_flip`, `C90_nonvacuous` (Props_Dead.v) | none | Refuted without the condition that new knots come one by one: each old knot accounts for at most one new knot. |

## Which parts of the code are modelled

Collected from the citations in the model files; line ranges are merged over all model files. A model file without a range in this table
cites the file in its header and the lines within the file (see there).

| source file | lines | model files |
|---|---|---|
| gsAlmostC1.h | 83-87 | PreModel.v |
| gsAlmostC1.hpp | 85-252, 260-393, 405-422, 427-501, 512-515, 519-549, 559-1051 | AcModel.v, PreModel.v, RefModel.v, RingModel.v, ThbModel.v, TriangleModel.v |
| gsApproxC1Edge.hpp | 30-238, 242-280 | C1Model.v, EdgeModel.v, IfSpaceModel.v, InterpModel.v, ReparamModel.v |
| gsApproxC1GluingData.h | 47-72, 100-193 | IfSpaceModel.v, ProjModel.v |
| gsApproxC1Spline.hpp | 62-247, 273-419 | C1Model.v, IfSpaceModel.v |
| gsApproxC1Utils.cpp | 21-224, 227-308 | C1Model.v, SpaceModel.v |
| gsApproxC1Utils.h | 84-140, 191-227, 292-318, 380-406, 474-803 | GluingModel.v, InterpModel.v, VfunModel.v |
| gsApproxC1Vertex.h | 69-77, 80-250, 266-353 | C1Model.v, IfSpaceModel.v, InterpModel.v, KindModel.v, ProjModel.v, RotModel.v, SigmaModel.v, VfunModel.v |
| gsApproxC1Vertex.hpp | 26-66, 70-343 | C1Model.v, IfSpaceModel.v, KernModel.v, ReparamModel.v, SigmaModel.v |
| gsBiharmonicAssembler2.h | 34, 38, 41-60, 86-145, 151-212 | BihModel.v |
| gsC1SurfBasisEdge.h | 36-47, 107-291 | AsmModel.v, C1Model.v, SurfGDModel.v |
| gsC1SurfBasisVertex.h | 69-77, 123-175, 191, 203-273 | AsmModel.v |
| gsC1SurfEdge.h | 50-104 | C1Model.v |
| gsC1SurfEdge.hpp | 45-72, 79-116 | ReparamModel.v |
| gsC1SurfGluingData.h | 50-84, 131-253, 273-293 | SurfGDModel.v |
| gsC1SurfGluingDataVisitor.h | 54-91, 98-173, 178-185, 208-210, 213-250, 255-259, 266-309, 312-322 | SurfGDModel.v |
| gsC1SurfSpline.hpp | 34-134, 144-272 | C1Model.v |
| gsC1SurfVertex.h | 42, 57-443, 446-582, 595-693, 846-1033 | BSysModel.v, KernModel.v, KindModel.v, ReparamModel.v, SelectModel.v, SigmaModel.v, SurfVModel.v |
| gsC1SurfVisitorBasisEdge.h | 44-157, 161-190 | AsmModel.v, SurfGDModel.v |
| gsC1SurfVisitorBasisVertex.h | 53-467 | AsmModel.v, SurfVModel.v |
| gsContainerBasis.h | 86-131, 171-174, 197-262, 294-369, 375 | C1Model.v, ContainerModel.v, IfSpaceModel.v |
| gsDPatch.hpp | 62-138, 143-577, 580-729, 893-1210 | BaseModel2.v, DpEvModel.v, DpModel.v, DpPreModel.v, EvModel.v, PiModel.v, RefModel.v, RingModel.v, ThbModel.v |
| gsDPatchBase.h | 60-67, 187-199, 321-342, 557, 577 | BaseModel.v, BaseModel2.v, DpModel.v, EvModel.v, PreModel.v |
| gsDPatchBase.hpp | 25-36, 46-127, 185-207, 226-272, 280-565, 791-843, 874-887, 905-1249, 1252, 1259-1772 | AcModel.v, BaseModel.v, BaseModel2.v, DpEvModel.v, DpModel.v, HierModel.v, PreModel.v, RingModel.v, ThbModel.v, TopoModel.v |
| gsG1AuxiliaryPatch.h | 30-35, 46-79, 97-103, 114-147, 167-174, 185-214, 232-235, 245-276, 293-299, 311-337, 364-367, 374-377 | BSysModel.v, ReparamModel.v |
| gsMPBESBSplineBasis.hpp | 22-148, 151-167, 179-433, 436-449 | ConnModel.v, DeadModel.v, MrefModel.v, ObjModel.v, RepairModel.v, VertexModel.v |
| gsMPBESBasis.h | 101-106, 344-350, 357-360, 373-385 | ObjModel.v, VertexModel.v |
| gsMPBESBasis.hpp | 39-276, 279-295, 298-359, 362-369, 372-394, 397-469, 472-531 | ConnModel.v, HbCoefModel.v, MrefModel.v, ObjModel.v, VertexModel.v |
| gsMPBESHSplineBasis.hpp | 20-595 | HbCoefModel.v, HbDistModel.v, HbMapModel.v, HbModel.v, ObjModel.v |
| gsMPBESMapB2D.h | 113-136, 147-150, 159-202 | MapAllModel.v, MapModel.v, VertexModel.v |
| gsMPBESMapHB2D.h | 74-108, 112-135, 140-149, 157-213, 237-250 | HbDistModel.v, HbMapModel.v |
| gsMPBESMapTensor.h | 62-77, 87-93, 103-331, 390-430, 451-495, 507-636, 643-750, 759-779, 784-797, 802-823 | BoehmModel.v, DeadModel.v, HbMapModel.v, MapAllModel.v, MapModel.v |
| gsMPBESSpline.hpp | 31-186 | MrefModel.v |
| gsMPBESUtils.h | 15-85 | MrefModel.v, UtilModel.v |
| gsPatchReparameterized.h | 29-40, 77-79, 85, 119, 167-169, 172, 175, 211, 253-255, 259, 262, 297, 355-356, 359-363, 417-439, 459-462, 488-494, 520-527, 552-558, 574-578, 593-611 | IfSpaceModel.v, ReparamModel.v |
| gsSmoothInterfaces.hpp | 32-52, 87-198 | BaseModel.v, BaseModel2.v |

## What is not modelled

* The commented-out code gsDPatchBase.hpp 566-790.
* The loops of the core assembler that call the visitors (src/gsC1SurfGluingDataAssembler.h) and trivial members: getters, print functions, option
  defaults, `_whichHandled`, shared-pointer plumbing, explicit instantiations (`*_.cpp`).
* examples/, tutorials/, unittests/, Python bindings, output and option handling.
* OpenMP parallelism (loops are sequential in the model), floating-point rounding, memory management except where a property is about it (C85, C89).

Trusted beyond the kernel and the axioms above: that the models transcribe the code (every definition cites its lines), and the behaviour of the
G+Smo core and Eigen as written down where they are used. In particular these are arguments or hypotheses, not proved facts:

* linear solvers (given by the systems they solve: C77, C82, C83, C86, C87; also C40, C57) and FullPivLU (C61, C81);
* quadrature nodes with the values of the functions in them, geometry maps and the expression assembler (C82, C83, C86);
* gsDofMapper, gsWeightMapper, gsBoxTopology, gsTensorBSplineBasis, gsKnotVector: re-specified by small functions in the model files;
* gsHTensorBasis: its size, active functions, refinement with coefficients and its transfer matrices (C73, C75, C78, C84); in C73 and C65 the refined
  bases and the transfer matrix are described by hypotheses (separated, transfer, sums of rows), C84 proves what `_makeTHB` adds to them;
* anchors, interpolateAtAnchors and collocation matrices (C87, written out; unique solvability and the values of the univariate functions, in particular
  at the right end of the interval, are hypotheses and arguments);
* `boundary`, `boundaryOffset` of the bases (C82 as lists; in C83 written out for tensor products).

## Findings

Deviations of the code from the properties, each with a machine-checked witness unless marked (†) = found by reading only.

D-patch and almost C1
* Functions are not continuous at sharp vertices and at boundary vertices of valence 3 (C06).
* A sharp boundary vertex of valence > 3 is an error although no smoothness is asked for (C17); interior vertices of valence 2 are an error in gsAlmostC1 (C18).
* Selection of the lowest corners compares patch numbers only (C10). Exported patches are stale after exportToPatches with other patches (C13).
  Calling compute() twice appends the bases again (C14).
* The two values of the option for the projection Pi are exchanged with respect to their documentation (C16).
* The rotation of normals to the third axis is the reflection −I for opposite directions (C20).
* In release builds refinement boxes can leave the patch (C21). `_initTHB` of the D-patch asks for degree−multiplicity−1 additional knots, −1 for C0 knots (†).
  `_initTHB` of gsDPatchBase leaves out a basis of another kind with a warning, the patches after it then have wrong numbers (C84).
* A patch that meets an extraordinary vertex twice gets a wrong or failing treatment (C64). `entries` is not cleared after the last stage of `_computeEVs`; harmless, proved in C64.
* Indices from a vertex that leave the refined box in the coarse row direction are not in order (C65).
* A sharp boundary vertex with four or more patches loses a basis function, and the functions are then dependent (C68). gsAlmostC1::_preCoefficients(patches)
  does not use its argument (C69). The D-patch counts the corner number among flags in `std::count(m_C0s...)` (C70).

Approximate C1 and C1 on surfaces
* Histories of rotations and swaps of an auxiliary patch beyond the ones used are not undone (C23, C24); negatively oriented interfaces are not (C25).
* gsG1AuxiliaryPatch does not reverse knot vectors: the surface changes for asymmetric knots (C42, C45). gsContainerBasis only exchanges components where the geometry is
  reversed, so that functions mapped back are the intended ones only for symmetric knots, edge spaces differ from those of init when the geometry has inner knots, and the
  two patches of an interface may get different pieces; ties between different knots are decided by the order of patches (C79).
* Patches with three functions per direction: rows overlap or leave the range (C26); the size check of the edge space is not sufficient (C46).
* gsContainerBasis::support(i) only works for the first piece (C30).
* The rotation of a surface patch does not normalise its axis and fails for downward normals (C41).
* Gluing data on surfaces: the penalty has the wrong sign, exact data do not solve the system unless alpha = 1, the splitting of beta is exact only for beta = 0,
  evalBeta is not the beta of the system (C57); minus functions are not scaled with the mesh size and knot number degree+2 is used (C58).
* kindOfVertex is wrong for two half rings and for a cone (C60). gsApproxC1Vertex counts interfaces in the same way: computeKernel
  is left out at the boundary of an annulus of two patches and applied at internal vertices of two patches joined along all sides (C88). computeKernel with the option second looks up patchID instead of patchID_iFace (C61).
* Edge spaces are too smooth at inner knots of the geometry and for uneven multiplicities (C62). The warning for r_geo = 0 in createGluingDataSpace is dead code (†).
* A second setG1BasisVertex on one object fails: m_f has grown to twelve systems (C77).
* computeSigma takes the pieces of the first patch for all patches and the running maximum of the degrees as knot index, which depends on the order of the patches and may read
  outside the knots; on surfaces the largest end of the second element is used as h, and sigma accumulates over calls (C80).
* On surfaces the third number of functions at a vertex is the difference of two kernel sizes, possibly −1, and the inner kernel uses three conditions where computeKernel uses
  four (C81). `getG1BasisCoefs(...) *= 0` acts on a copy (†).

Biharmonic solver
* Values and slopes are projected together with weight 1e-5, so that the prescribed values alone are not a best approximation (C82).
  `bool & second = false` is not a valid default argument (†). h1err and h2err are sums of seminorms, equivalent to the norms (C82).

MPBES
* Functions are added twice at special boundary vertices with a distance above the degree (C33). Lengths of blocks are exchanged for different degrees (C48).
  The line on an interface of a patch with itself is added twice (C49). Opposite sides joined in reverse orientation are not reversed (C50).
* The copy constructor drops the weights (C34, C85). operator= keeps the old weights and leaves the mapper null; self-assignment frees the bases; three constructors of the
  hierarchical basis ignore the check; a smoothness below −1 becomes a huge distance; degree elevation keeps smoothness and distances (C85).
* getCompBasisFromMultiPatch leaks one copy per patch for hierarchical bases; for mixed bases it returns the null pointer in release builds (C89).
* getNrOfSpecialKnots (unused) counts too few knots if several are inserted in one element (C90).
* Short sides: unsigned subtraction wraps (C36). The distance from the second corner is looked up from the first (C39); setC0 updates only the interfaces on the sides
  of the given corner (C52); shifted intervals and multiple knots break the distances (C53).
* repairPatches loses multiplicities and reads past the end for different degrees (C38).
* A second parameter interval that does not start in 0 gives a kink (C55). A patch that meets a special vertex twice adds the column twice (C63).
* Refinement: a midpoint is inserted once per box containing it, so that boxes side by side give double knots and unmatched interfaces; element indices are taken as
  parameters and the level is ignored; refineAndSmooth and refineElementsAndSmooth do not repair the neighbours; repairs start only from the refined patch;
  uniformRefineAndSmooth passes `false` as multiplicity and refines nothing; the C0 constructor of gsMPBESSpline uses unrepaired coefficients and ignores two arguments (C71, C72).
* Hierarchical repairPatches may leave interfaces unmatched or inner boxes unsuitable, and may not end (three patches around a vertex, degree 2) (C74).
* Hierarchical mapper: strips one element wide look up function −1, levels that differ by two at a special vertex add the coarse column twice and the fine one never,
  isLocallyConnected reads out of bounds (C75). Distances: findParameter and getDistanceOfVertex reverse the knots at different ends (C76).
* `_setDistanceOfAllVertices` runs before repairPatches (†); m_global is not reset in makeMapper (†).
