# Formal model of FeignRenderer: design

## 1. Layout

```
properties.jsonl           the semantic properties (English)
MANIFEST.json              property -> status, theorem names, note
seeded/LOG.jsonl           mutation-testing log
rocq/theories/Base/        outcome monad, list lemmas, real-number helpers
rocq/theories/Model/       Gallina transcription of the C++ (each definition cites file:lines)
rocq/theories/Spec/        independent specifications
rocq/theories/Proof/       lemmas and proofs
rocq/theories/Props/       property theorems only: Theorem, `exact lemma`, Example, Print Assumptions
```

## 2. Arithmetic and outcome conventions

* Floating point: `Float` is `float` in the pinned configuration
  (`include/feign/common.h`, `DOUBLE_PRECISION false`).  Geometry, probability and
  radiance are modelled over the real numbers `R` of the standard library: rounding,
  overflow, infinities and NaN are **not** modelled there.  Theorems therefore carry
  explicit side conditions wherever C++ would divide by zero or take the root of a
  negative number.  The claims where rounding decides the answer (index selection
  from a uniform float) are modelled with Flocq binary32 instead.
* `int`/`size_t` are `Z`/`nat`; wrap-around is modelled only where a definition says so.
* Undefined behaviour (out-of-range access, null dereference, `assert` failure) and
  `throw` are distinct constructors of the outcome type: `Ok v | Throw e | UB`.
* Outside components (Embree, pcg32, RapidJSON, image I/O, wall clock, random numbers,
  ray/scene intersection inside the integrators) are parameters of the definitions
  (Section variables closed at the end of the section, or explicit function
  arguments); theorems quantify over them.
* Schedules are explicit inductive relations or explicit interleavings; theorems
  quantify over all of them.

## 3. Refuted properties

If the code falsifies a property, the theorem is named `..._refuted` and exhibits a
witness.  The property keeps its English form (what a user expects), its status in
MANIFEST.json is `partial`, and the note starts with `REFUTED` and names the exact
behaviour proved instead (usually a theorem that characterises when the property
does hold).

## 4. Properties and proof plans

| id | model | proof |
|----|-------|-------|
| C01 | tile list of `initialize_pool` as nested counting loops over `Z` | membership characterisation by induction on the loop; uniqueness by div/mod |
| C02 | dispatcher as a transition system: slots, pending stack, completion events | inductive invariant; multiset of started tiles + pending = all tiles |
| C03 | same, start phase with `UB` on pop of empty list | refutation + exact characterisation (safe iff tiles >= threads) |
| C04 | film as pixel -> (sum, weight); workers are lists of updates; interleaving relation | commutativity of updates, permutation invariance |
| C05 | clip and floor loops | real inequalities, `Int_part`/`up` lemmas |
| C06, C07 | sequential accumulate + divide | fold invariants, convexity by induction |
| C08 | `evaluate_pool` without clear | witness; positive: dependence is exactly additive |
| C09 | triple loop as list of sample events | counting by induction |
| C10-C14 | API as state machine: per-kind maps name -> node, API clock flag | invariants over all histories; poisoning theorem |
| C15, C16 | `flush_renders` as fold over objects | induction; witness for sharing |
| C17 | transform state as matrix product | induction over call list, uses C22/C23 |
| C18 | `addEmitter` fold | counting |
| C19 | clock automaton | induction over call sequences |
| C20 | `to_string`/`parse_from_string` over token lists | witness for swap and OOB |
| C21 | integrators as programs emitting clock events with oracle control | structural induction on executions |
| C22-C25 | `Matrix4` as 16-tuple | ring/field |
| C26 | frame | field, sqrt lemmas |
| C27 | vectors | witness + characterisation (max = min) |
| C28-C30 | boxes | order reasoning (lra), induction over lists |
| C31, C32 | `DiscretePDF1D` over lists of R | prefix sums, induction |
| C33, C34 | warp functions over R | trigonometric identities, Coquelicot integrals |
| C35, C36 | `fresnel` | field, nonlinear inequalities, witness |
| C37-C39 | materials | algebra, Coquelicot |
| C40-C41 | emitters | algebra; witness |
| C42 | Flocq binary32 multiplication and truncation | error bounds, witness beyond 2^24 |
| C43-C47 | media | exp/ln, induction on tracking steps, Coquelicot |
| C48-C49 | SDFs and sphere tracing | norms, induction on steps |
| C50-C52 | meshes | Moeller-Trumbore algebra; induction on faces; grid counting |
| C53-C54 | photon arrays | sortedness invariants; buffer counter; witness |
| C55-C58 | integrators with oracle scene answers | fuel-free structural recursion on bounce budget |
| C59-C61 | scene queries | induction over hit lists |
| C62 | texture index | bounds |
| C63 | tester | case analysis, induction over test list |
| C64-C68 | filters, camera, complex numbers, fractal density | algebra, induction |
| C69 | dispatcher + sampler copies | the k-th started tile and its seed are functions of k only |
| C71, C72 | filters with their default sizes | footprint of one sample, witness |
| C73-C76 | vector, box and warp helpers | case analysis, witness + exact characterisation |
| C77 | mesh lights over `DiscretePDF1D` | reduction to C32 |
| C78-C81 | API state machine and flush | invariants over all histories, iff for completeness |
| C82, C83 | debug integrators; whole renders with clocks | weakest-precondition style rules over a state monad (`runs`, `nf`, `lg`) |
| C84, C85 | roulette | Riemann integrals over the random number |
| C86-C90 | materials | algebra on local directions, witnesses |
| C91, C94 | path integrator history | history relation proved by induction on the loop (`hs`) |
| C92, C101 | `intersect_transmittance` | induction over the ordered surfaces of a ray |
| C93, C95-C100, C102 | light sampling, spatial light table | algebra, integrals, witness |
| C103-C111, C122 | media, estimators, samplers | integrals over random streams, exponential law, witness |
| C112-C114 | transmittance functions | derivative/limit arguments, bisection bracket |
| C115, C116 | environment, wireframe | induction over lights; barycentric geometry |
| C117-C121 | distance shapes, distance scene, normals | norm inequalities, finite differences |
| C123-C127 | mesh intersection records, OBJ reader, displacement shader, terrain | list induction, linear algebra |
| C128-C131 | photon maps | filters over lists, conservation by induction over bounces |
| C132-C135 | textures, command line, test names | index arithmetic, induction over argv |
| C136-C141 | JSON document tree -> API calls -> scene | refinement of a separate reading of a block (`says`), then the API invariants |
| C142-C154 | volumetric integrators as query programs | soundness of the loop against a history specification, concrete runs for refutations |
| C155-C160 | samplers as a position in one number stream; sample loop with machine integers | simulation by positions, reduction to C06, witness |
| C161 | camera with a stale projection matrix | reduction to C65, iff on the aspect |
| C162-C164 | ownership of every allocation, process state with a global instance | set equality created minus leaked = deleted, simulation of sessions |
| C165-C166 | shape table and Embree's numbering, an oracle for Embree | iff over all oracles; counterexample oracle |
| C167-C171 | film buffers over Flocq's binary32 | rounding error induction, exact sums below 2^24, saturation of the weight sum, NaN propagation |
| C172-C175 | products and sums with Epsilon over binary32 | midpoint arguments on spacing of floats, counting of draws by thresholds, measure on surfaces ahead |
| C176-C178 | composition of the marched distance field with the walk and the shadow rays | exact results for every fuel; bound on the tilt of numeric normals of balls, concrete scenes |
| C179-C183 | effects of a run as a list; pages as lists of rows, links and images | induction over the rows and the directory listing; string cancellation; case analysis over the 28 graphs |
| C184-C185 | query programs as for C142-C154 | equality of runs with volpath at one bounce, by cases on what is met |
| C186-C187 | frame lemmas for the API calls (no definition and no node appears for a name that no call mentions); inversion of the parser | equivalence of hand-over and completeness of the file; documented tables checked member by member |
| C188-C189 | relation of programs of two scenes ([same_program]), induction over the loops | [same_run]: result times k, same clocks, same random numbers; then the image theorems of C06 and C04 |
| C190-C191 | partial-correctness triples for the integrator monad | invariant: throughput within [0,1] (C190), throughput exactly 1 (C191) |
| C192-C194 | Flocq binary32; images by C62 | error of each operation; y <= rnd(sqrt(rnd(y^2))); midpoint argument for the cap; closed computation of one bounce for the refutation |
| C195-C197 | Flocq binary32; a path as the list of what its turns meet | induction over the path: throughput within (1+9u)^i, radiance within [grown]; NaN is absorbing for the refutation; relative errors counted as powers of 1/(1-u) for C197 |
| C198 | relation of programs of three scenes, induction over the loops | [run3]: third result is the sum, same clocks and random numbers; images by C06 and C04 |
| C199 | [expect]: mean over the random numbers of a program; [arrives]: light transport without throughput | induction over the iterations: mean of a sample with radiance Li and throughput b is Li + b [arrives], within n L/10000 below and n n L d above; roulette by linearity and q in [p, p+d]; lamps: transmittance, choice of a light and cosine keep every sampled light below B |
| C200 | [samples]: N independent runs of a program; range of a sample by induction over the iterations | variances of independent runs add; Chebyshev inequality; bias by C199 |
| C201 | [fading]: share rho of the light passed on at every vertex | induction over the iterations: one more vertex adds between 0 and L rho^n; geometric series; means by C199 |
| C202 | [seen_from]: first solid surface from a point against the beam | the skipping of null boundaries finds it (induction over the surfaces on the line); shadow ray by C92 |
| C203 | [over_tapes]: mean over all sequences of numbers k/N that are long enough; [arrives_there]: light without roulette | the run on a tape is the run of the volumetric program without media (C144); tapes give the expectations of C199, C200, C201 |
| C204 | [brighter_shader]: same materials, no channel darker; [repainted] scenes | the two scenes ask the same queries (relation [in_step] between programs); induction over the vertices with non-negative weights; means by C199 and C203 |
| C205 | [seen]: what is seen over n surfaces, by its own recursion without random numbers for the roulette | the run on a tape is the run of a program without clocks ([mirrors_same]); average by induction over the depth, with the share of deep samples of C206 |
| C206 | [kept]: share of the random numbers up to 0.95; [too_deep] runs | induction over the depth; roulette by linearity of the average |
| C207 | [exposed]: share of the N x N directions of the cosine warp that hit nothing | the run on a tape is the run of a three-step program; variance of C200 with values in [0,1] |
| C208 | [alike]: all bounded quantities of the results have means at most d F apart; [with_lights], [uneven]: remainder of N by the number of lights | counting of the random numbers per light, invariance of sums under permutation; a congruence for programs lifted through shading and the loops of the integrators |
| C209 | interior by a distance to the outside; symmetry; cross products of the edges | linear arithmetic |
| C210 | mean by n times the entry = sum of the entries | induction over the records and the clocks |
| C211 | the light of C203 for four lists of lamps; `near_lamp`, `left_over` (Spec/SumSpec) | induction on the vertices; one light of the list chosen with 1/n is, on average, the sum of the list |
| C212 | worlds that count rays and numbers, `costs` (Spec/WorkSpec) | programs ask for at most (a, b); sequential composition adds up; induction on the bounces |
| C213 | the light of C203 for two sets of surfaces; `black`, `inserted`, `more_objects` (Spec/BlackSpec) | induction on the vertices; a light sample is what it was or blocked, nothing leaves a black vertex |
| C214 | worlds that list their rays, `traced`, `unwatched`, `interleaved` (Spec/TraceSpec) | three runs side by side: watched, plain, with the objects; equal step by step while the answers agree |
| C215 | binary32 and binary64 (the literal 1.0); `true_point`, `dist`, `unit_normal`, `leaving` (Spec/FloatHitSpec) | error of each operation; the distance from the plane is at most the distance of the points (Cauchy-Schwarz) |
| C216 | binary32; `true_cross`, `unit_vector`, `along`, `normals_ok` (Spec/FloatNormalSpec) | relative errors of edges, products and their difference; normalisation from C192 |
| C217 | pairs of runs with the same random numbers; `sees` (Spec/ShadeSpec), `interleaved` | relation kept by every step: a shadow ray that is free with the objects is free without them; looking draws no numbers |
| C218 | binary32; `hg_density`, `within_2_percent` (Spec/FloatPhaseSpec) | absolute error of the denominator against its smallest value, relative errors of the rest; Machin's bounds for pi |

## 5. What is modelled

Each definition in `Model/` cites the file and lines it transcribes; simplifications are stated there.

| source | model |
|--------|-------|
| include/feign/math/vector.h, complex.h, spectrum.h (parts used) | Vec.v, Matrix.v, ComplexNum.v |
| src/math: transform, coord_frame, ray, warp, discrete_pdf; bbox.h | Matrix.v, Frame.v, BBox.v, Warp.v, DiscretePdf.v |
| src/api/api.cpp (all calls, find_*, flush_renders up to the renderer) | Api.v, ApiTransform.v |
| src/parsers/json_parser.cpp (on a parsed document tree) | Json.v |
| src/main.cpp, src/test/test.cpp, tester.cpp | Harness.v |
| src/stats/clocker.cpp and all CLOCKER macros | Clocker.v, Integrators.v |
| src/misc/render_pool.cpp, src/integrators/integrator.cpp, filters | Tiles.v, Locks.v, Film.v, PoolFilm.v |
| src/cameras/perspective.cpp, look-at of fr_camera | Camera.v |
| src/bsdfs/*, src/closure/material.cpp | Bsdf.v, Integrators.v |
| src/emitters/*, src/accel/light_*, src/scene.cpp (light sampling, transmittance, environment) | Scene.v, LightSelect.v |
| src/integrators: path_unidir, whitted, amb_occ; debug views | Integrators.v |
| src/integrators: volpath, volpath_nonexp, volpath_trans | VolPath.v |
| src/integrators/photon.cpp, src/accel/photon_array.cpp | Photon.v |
| src/media/* (phase, standard, sampling, trans_ests, trans_funcs, density functions) | Phase.v, Media.v, TransFunc.v, Fractal.v |
| src/shapes/sdf_*, src/accel/ray_sdf.cpp | SDF.v |
| src/shapes: objmesh, grid_obj, triangle; src/shaders/interp_verts_to_sphere.cpp; src/misc/intersection.cpp | Mesh.v |
| src/textures/*, src/shaders/wireframe_material.cpp, simple_material.cpp | Texture.v, Scene.v |
| src/samplers/*, fr_sampler, Scene::renderScene (sampler, target image) | Driver.v |
| clean_up, initialize, ~Scene and node destructors, RayAccel choice, ray_embree.cpp (numbering) | Lifecycle.v |
| src/integrators/integrator.cpp:39-133 and box_filter.cpp in binary32 | FloatFilm.v over Base/F32.v |
| light_naive.cpp:32, render_pool.cpp:172, scene.cpp:181-202 and the Epsilon offsets, in binary32 | FloatRays.v |
| scene.cpp:181-535 with SDFAccel as the accelerator | SdfScene.v over SDF.v and Scene.v |
| site_assembler.cpp, test.cpp (names of files), generate_clocking_graphs.py (columns and file names) | Site.v; headings and prose of the pages and failures to open files left out |
| src/debug_integrators/sandbox.cpp | Sandbox.v |
| scenes/scene_file_format.txt (documentation) | Spec/FormatSpec.v |
| scene.cpp, emitters, shaders, bsdfs and integrators put together | Renderer.v; the accelerator, sampler, clock, mesh points and media transmittance are parameters; a failing light sample is replaced by an unlit closure (its run says nothing about the renderer) |
| vector.h:367-401, 540-563, 725-794, coord_frame.cpp:32-118, warp.cpp:14-80, environment.cpp:47-68, mirror.cpp:27-29 in binary32 | FloatDirs.v; sinf, cosf, atan2 and acos are parameters |
| loops of path_unidir.cpp, volpath.cpp and volpath_nonexp.cpp in binary32 | FloatPath.v; what each vertex contributes is given |
| objmesh.cpp:418-431 in binary32 with the intermediate doubles | FloatHit.v; the barycentric coordinates are given (Embree computes them) |
| objmesh.cpp:443-460 in binary32: the two normals | FloatHit.v |
| phase.h:55-60, 71-84 in binary32: the value and the sampled cosine of HenyeyGreenstein | FloatPhase.v; the sampled cosine only for abs(g) >= Epsilon |

Not modelled:

* Third-party code: Embree, RapidJSON, pcg32, OpenVDB, the image library.  They are parameters:
  an intersection oracle, a parsed tree, a generator with any state, any image.
* `src/media/density_funcs/vdb_density.cpp` (a wrapper around OpenVDB), `point_average.cpp` (only throws).
* Files without executable content: wave_displacement.cpp, radar_material.cpp, homo_abs.cpp (commented out),
  sdf_interaction.cpp, photometric.cpp, noise_texture.cpp, light_unidir.cpp, path_bidir.cpp, ortho.cpp (only throw).
* `src/accel/photon_bvh.cpp`: its build throws; only that is used.
* Printing and logging, except where a property is about it.
* Rounding of floats outside C42, C62, C167-C175 and C192-C197; memory layout; data races other than those of the render pool.

## 6. Conventions of the statements

* `Spec/` files do not use the functions of `Model/` that they specify; they use its data types.
* Beside every theorem an `Example C.._case` gives a concrete, non-trivial instance of its hypotheses.
* Theorems about integrators quantify over every scene answer, shader, light sampler and random stream; a run that
  does not end appears as `OutOfFuel` and is excluded explicitly.

## 7. Trusted base

* Coq 8.16.1 kernel (and `coqchk`).
* The axioms printed by `Print Assumptions` (next section): the standard library's real numbers
  (`sig_forall_dec`, `sig_not_dec`), functional extensionality and excluded middle (`classic`, through
  Coquelicot and Flocq).  No axioms of our own.
* The transcription from C++ to Gallina, documented definition by definition.

## 8. `Print Assumptions` for each theorem

**none (closed under the global context)**

C01_tiles_partition_film, C02_can_always_finish, C02_every_tile_once, C03_defined_iff, C03_render_defined_refuted, C19_names_distinct, C69_start_order_fixed, C125_no_number, C125_no_texture_refuted, C125_plain_index, C125_stops, C125_two_indices, C125_zero_index_refuted, C135_names, C135_selected, C135_three_digits, C141_missing_file_refuted, C155_copy, C155_reseed, C157_rounds_each_pixel, C159_plain_copy_refuted, C159_unset, C160_api_makes_independent, C179_overview, C180_home_refuted, C180_links_work, C180_own_page, C181_images_exist, C181_own_images, C181_positive_error_refuted, C182_squared_error_refuted, C183_deleted_refuted, C183_drawn, C183_folder, C183_one_row_each, C183_others_refuted

**`sig_forall_dec`**

C04_seeds, C09_total_samples, C111_unshared, C155_counter, C155_rewind, C158_same_numbers, C160_never_a_number, C182_graphs, C182_row, C210_shorter

**`sig_forall_dec`, `functional_extensionality_dep`**

C04_film_schedule_independent, C04_no_deadlock, C05_splat_complete, C05_splat_in_bounds, C05_splat_once, C06_average_between_samples, C06_render_is_filtered_average, C07_constant_radiance, C08_black_start_is_filtered_average, C08_ignores_old_contents_refuted, C08_leak_is_old_over_weight, C09_parallel_samples_per_pixel, C09_samples_per_pixel, C19_accepted_iff_alternating, C19_added, C19_first_error, C19_independent, C19_total_nonnegative, C19_totals, C20_read_never_succeeds, C20_round_trip_is_undefined, C20_round_trip_refuted, C20_times_recovered_date_permuted, C22_inverse_exact, C22_nonzero_det_is_necessary, C23_affine_round_trip, C23_point_round_trip, C23_product_applies_right_to_left, C23_product_applies_right_to_left_vectors, C23_stored_inverse_is_inverse, C24_normals_stay_perpendicular, C27_maxValue_minValue, C27_max_refuted, C27_max_returns_minimum, C27_max_right_iff_grey, C27_neq_refuted, C28_expand_gives_smallest_box, C28_from_empty, C28_merge_gives_smallest_box, C28_order_independent, C29_intersect_exact, C29_slab_parameters, C30_children_cover, C30_children_disjoint, C30_volume, C31_converted_table, C31_normalized_table, C32_loop_finds_the_entry, C32_sample_is_always_entry_zero, C32_sample_refuted, C35_equal_indices, C35_grazing, C35_range, C35_total_reflection, C36_angle_ignored, C50_complete, C50_exact, C50_in_parallelogram, C50_outside_refuted, C50_small_refuted, C50_unique, C51_bad_index, C51_nearest, C51_order_independent, C53_nearest, C54_when_exactly, C56_monotone, C59_close_wall_missed, C59_exact, C59_light_queries, C59_nearest_solid, C62_cell, C62_nan_refuted, C63_all, C63_nan_refuted, C63_reference_refuted, C63_single_refuted, C64_box_filter, C67_complex3_field_refuted, C67_complex3_ring, C67_complex_field, C67_sub_assign_refuted, C67_sub_assign_right_iff, C68_bounds, C68_count, C68_density, C68_inside, C68_monotone, C71_default_box_own_pixel, C71_every_sample_counts_refuted, C73_max_index_refuted, C73_max_index_right_iff, C74_overlaps_means_covered_by, C74_overlaps_refuted, C74_overlaps_sound, C75_local_inverts, C75_sample_axis, C75_sample_axis_refuted, C75_sample_refuted, C75_sample_right_iff, C75_sample_shifted, C76_right_for_nonnegative_coordinates, C76_triangle_density_exact, C76_triangle_density_refuted, C82_cosine_view, C82_normal_view, C82_wireframe_view, C84_path_roulette_unbiased, C85_expected_value, C85_roulette_unbiased_refuted, C92_computed, C92_crossing_one_medium_partial, C92_leaving_one_medium_partial, C92_missing_inside_refuted, C92_no_media_partial, C100_cell_refuted, C100_nearer_not_heavier_refuted, C100_weight_exact, C107_defined_refuted, C107_weight, C110_max, C111_own, C111_shared_refuted, C116_wire, C121_smooth_union, C124_face_centroid, C124_mesh_box, C124_mesh_centroid, C124_scene_bounds, C124_scene_bounds_refuted, C124_triangle_box, C126_radius, C126_radius_refuted, C130_black, C130_no_red_refuted, C130_unbiased, C132_identity, C134_codes, C134_missing_refuted, C134_scenes, C136_block_read_as_written, C136_file_read_as_written, C137_camera_vectors_refused, C137_media_coefficients_refuted, C137_texture_behaviour, C137_texture_scale_refuted, C139_duplicates_refuted, C139_order_immaterial, C139_transforms_in_order, C141_unknown_accel_refuted, C141_unknown_class_refused, C149_medium_roulette, C151_clear, C151_no_inside_refuted, C151_open_shape_refuted, C151_transmittance, C156_image, C156_image_from_stream, C156_seed_has_no_effect, C156_seed_matters_refuted, C156_tiles, C157_negative_count_refuted, C158_reproducible_refuted, C187_camera_refuted, C187_defaults, C187_ignored_refuted, C187_members, C199_grid, C206_share, C209_center, C209_contains, C209_contains_on, C209_sample3, C210_average

**`sig_forall_dec`, `sig_not_dec`, `functional_extensionality_dep`**

C10_defined_once, C11_object_references, C11_one_node_per_name, C11_references_resolved, C12_reserved_names, C13_error_blocks_everything, C13_recovery_refuted, C14_clocked_object, C14_taken_name_refuted, C14_unclocked_object, C15_emitter_mesh, C15_shape_object_correspondence, C16_shared_mesh_behaviour, C16_shared_mesh_refuted, C17_calls_compose_in_order, C17_inverse_iff_calls_invertible, C17_inverse_undoes, C18_emitters_once, C18_only_emitters, C21_amb_occ_clocks, C21_path_clocks, C21_whitted_clocks, C25_rotation_angles_add, C25_rotation_det_one, C25_rotation_fixes_axis, C25_rotation_formula, C25_rotation_inverse, C25_rotation_is_isometry, C26_frame_orthonormal, C26_frame_round_trip, C26_local_z_is_cosine, C26_spherical_direction, C33_cap, C33_cosine_hemisphere, C33_disk, C33_hemisphere, C33_sphere, C33_triangle, C34_uniform_sphere, C36_refuted, C36_right_at_normal_incidence, C40_inverse_square, C41_direction_as_given, C41_unit_direction_refuted, C49_complete_refuted, C52_covers, C52_shape, C52_vertices, C53_estimate, C53_too_few, C54_one_bounce, C54_overrun_refuted, C54_photons, C54_safe_room, C54_specular_hangs, C55_bounce_limit, C55_terminates, C56_nonnegative, C56_sum_of_contributions, C57_zero_or_one, C58_emission_once_refuted, C58_surface_value, C58_whitted_values, C60_shadow_rays, C61_multi_exact, C61_one_counted, C61_samples_lost_refuted, C65_central_ray, C65_clip_planes, C65_distinct_film_positions_distinct_rays, C65_lens_origin, C65_pinhole_ray, C65_ray_directions_are_unit, C65_thin_lens_focus, C66_look_at_axes, C66_look_at_maps, C66_look_at_rigid, C77_area_sampling_refuted, C77_only_first_triangle, C77_point_outside_iff, C78_first_definition_succeeds, C79_none_name_always_crashes, C79_none_name_refuted, C80_complete_iff_flush, C80_missing_mesh_reported, C81_named_filter_refuted, C81_only_default_filter, C82_nice_normal_view, C83_render_clocks, C91_path_geometry, C93_distant_lights_refuted, C93_scene_refuted, C95_one_light_unbiased, C96_negative_light_refuted, C96_nonnegative_partial, C97_mesh_light, C98_spot_cone, C101_point_light, C110_colour_refuted, C110_sphere, C117_boxes_refuted, C117_either_order, C117_sphere_box, C118_nearest, C118_order_independent, C119_hit_record, C119_plane_normal, C119_plane_normal_refuted, C119_sphere_outward, C119_tilted_plane_refuted, C123_geometric_frame, C123_position, C123_shading_frame, C123_side_refuted, C123_uv, C124_area, C125_bad_index_refuted, C125_loads, C125_polygons_rejected, C125_well_formed, C126_blend, C126_coordinates, C126_face_normals, C126_never_finite_refuted, C126_no_normals_refuted, C126_on_sphere, C126_unit_normals, C127_flat, C127_triangles_face_up, C127_unit_normals, C127_upper_side, C128_near, C128_radius_refuted, C128_reach, C128_render, C129_normalised_refuted, C129_total, C130_diffuse, C131_emits, C131_other_refuted, C131_power, C133_channels, C133_range, C133_third_refuted, C138_load, C140_block_order_refuted, C140_scene_first, C141_unknown_block_refuted, C142_bounce_limit, C142_terminates, C143_history, C143_nonnegative, C143_sum_of_contributions, C144_no_media, C145_media_tracked, C145_surroundings_lost_refuted, C147_isotropic_partial, C148_environment_refuted, C150_clocks, C150_render_clocks, C152_flags_given, C152_flags_refuted, C152_unset_refuted, C154_lamp_behind_refuted, C154_skipped_exact, C161_resampled, C161_right_iff, C161_target_refuted, C162_both_sampled_refuted, C162_last_wins, C163_defined_iff, C163_freed_exactly, C163_leak_refuted, C163_unused_photon_refuted, C164_isolated, C164_mode, C164_needs_initialize, C165_meshes_only, C165_right_iff, C165_wrong_mesh_refuted, C166_mesh_mode, C166_sdf_mode_iff, C166_unseen_refuted, C176_shadow_ray, C176_walk, C177_shadowed_iff, C178_wall_refuted, C184_beyond_refuted, C184_direct_light, C184_medium, C184_no_medium_refuted, C184_open_refuted, C184_solid, C184_wall_behind_refuted, C185_clocks, C185_render_clocks, C186_renders_iff, C187_material_refuted, C187_scene_defaults_refuted, C189_views, C199_average, C199_light, C200_converges, C200_noise, C200_unlikely, C201_average, C201_light, C202_computed, C202_lit, C202_long_refuted, C202_unlit_refuted, C203_average, C203_bounces, C203_noise, C205_depth, C205_mean, C206_ends, C207_mean, C207_noise, C209_area, C212_amb_occ, C214_amb_occ, C217_tile

**`sig_forall_dec`, `sig_not_dec`, `classic`, `functional_extensionality_dep`**

C33_cosine_power_hemisphere, C34_cap, C34_cosine_hemisphere, C34_cosine_power, C34_cosine_power_negative, C34_disk, C34_triangle, C34_triangle_normalised, C34_uniform_hemisphere, C37_opaque, C37_reciprocal, C37_reflectance, C37_sampling_weight, C38_along, C38_dielectric, C38_dielectric_refuted, C38_grazing, C38_mirror, C39_blinn_refuted, C39_phong_density, C41_spot_refuted, C42_index_in_range, C42_never_chosen, C42_probability, C43_homogeneous, C43_laws, C44_exact, C44_step_independent_refuted, C44_vanishes, C45_eddington_refuted, C45_hg_mean_cosine, C45_phase_normalised, C45_phase_symmetric, C46_eddington_draws, C46_eddington_refuted, C46_ellipsoidal_draws, C46_hg_draws, C46_hg_refuted, C46_isotropic, C46_rayleigh, C47_constant_medium, C47_range, C47_unbiased, C48_box_surface, C48_never_overestimates, C48_sign, C48_signed_distance, C49_finds_near_surfaces, C49_first_surface, C49_mixed_scenes_refuted, C49_never_passes_a_surface, C56_materials_keep_light, C56_materials_physical, C57_occlusion_ray, C62_in_bounds, C62_wide_refuted, C64_gauss_filter, C72_default_gauss_render_black, C72_default_gauss_weighs_refuted, C76_other_densities_vanish_outside, C86_evaluate, C86_evaluate_after_sample, C86_phong_refuted, C86_sample_is_evaluate, C87_blinn_half_vectors, C87_energy_refuted, C87_phong_reflectance, C88_enters, C88_never_leaves, C89_direction_and_colour, C89_weight_refuted, C90_blinn_refuted, C90_diffuse_and_mirror, C90_phong_refuted, C92_light_in_medium_refuted, C92_two_media_refuted, C94_counted_once, C94_path_counted_once, C94_wireframe_exact, C94_wireframe_refuted, C99_in_square, C99_inverse, C102_behind_null_refuted, C103_agree_iff, C103_agree_refuted, C104_coloured_refuted, C104_escape, C104_gray, C105_consistent_refuted, C105_empty, C105_exponential, C106_after_start, C106_march, C106_march_law, C108_absorbing, C108_scattering, C109_moves, C112_linear_medium_refuted, C112_medium_density, C112_surface_density, C112_survival, C113_channels, C113_davis_channels_refuted, C113_davis_first, C113_eval, C113_reciprocal, C113_sigma_bar, C114_davis, C114_exponential, C114_linear_medium, C114_linear_surface, C114_linear_surface_refuted, C115_environment_sum, C115_interpolated_refuted, C116_material, C118_union_distance, C120_range_refuted, C122_flight_segment_only, C122_segment_only, C122_unsupported, C146_counted_once_partial, C146_counted_twice_refuted, C146_counting_rule, C147_phase_refuted, C153_sample_rule, C153_stale_samples_refuted, C167_average, C167_relative, C168_late_samples_refuted, C169_local, C169_neighbours_spoilt_refuted, C170_constant_refuted, C170_exact, C171_counted_iff, C171_lost_refuted, C171_safe, C172_fair, C172_index_valid, C172_reachable, C173_injective, C173_seeds, C174_far_light_refuted, C174_starts_after, C174_stops_before, C175_closed, C175_closed_found, C175_far_surface_refuted, C175_open, C175_open_found, C176_looked_through_refuted, C177_before_the_light_refuted, C177_shadow_has_cause, C178_sphere, C188_image, C188_path, C188_threads, C188_volpath, C188_whitted, C189_image, C189_path, C189_volpath, C189_whitted, C190_bounded, C191_furnace, C192_huge_refuted, C192_tiny_refuted, C192_unit, C193_bounce_refuted, C193_normalized, C193_safe, C194_cap, C194_disk, C194_hemisphere, C194_sphere, C195_finite, C196_finite, C196_zero_draw_refuted, C197_estimate, C198_groups, C198_image, C198_path, C198_threads, C198_volpath, C198_whitted, C199_lamps, C199_scene, C200_lamps, C200_scene, C201_lamps, C201_scene, C203_scenes, C203_scenes_bounces, C203_scenes_noise, C204_light, C204_mean, C204_path, C205_scenes, C205_scenes_depth, C206_bounded_refuted, C206_hall, C208_exact, C208_path, C208_pixel, C208_volpath, C208_whitted, C211_exact, C211_light, C211_mean, C211_more, C212_path, C212_pixel, C212_whitted, C213_light, C213_mean, C214_path, C214_volpath, C214_whitted, C215_leaves, C215_meets_refuted, C215_point, C216_geometric, C216_needle_refuted, C216_opposite_refuted, C216_shading, C218_peak_refuted, C218_sample_refuted, C218_value
