{
 "claims": [
  {
   "property": "C01",
   "status": "proved",
   "theorems": [
    "C01_tiles_partition_film"
   ],
   "note": "Also fixes tile indices, tile sizes and the tile count ceil(w/tw)*ceil(h/tw). int overflow near INT_MAX not modelled."
  },
  {
   "property": "C02",
   "status": "proved",
   "theorems": [
    "C02_every_tile_once",
    "C02_can_always_finish"
   ],
   "note": "Safety for every interleaving plus the possibility of completion from every reachable state."
  },
  {
   "property": "C03",
   "status": "partial",
   "theorems": [
    "C03_render_defined_refuted",
    "C03_defined_iff"
   ],
   "note": "REFUTED: a 64x64 film with 12 threads pops an empty vector (UB). C03_defined_iff gives the exact condition: defined iff ceil(w/tw)*ceil(h/tw) >= number of threads."
  },
  {
   "property": "C04",
   "status": "proved",
   "theorems": [
    "C04_film_schedule_independent",
    "C04_no_deadlock",
    "C04_seeds"
   ],
   "note": "Dispatcher and workers interleave at single loads/stores under per-pixel mutexes; exact arithmetic; C04_no_deadlock shows the whole render can always complete; C04_seeds gives the random generator of every tile. The unsynchronised `done` flag is modelled as an atomic read."
  },
  {
   "property": "C05",
   "status": "proved",
   "theorems": [
    "C05_splat_in_bounds",
    "C05_splat_complete",
    "C05_splat_once"
   ],
   "note": "Stronger than the statement: no hypothesis on the position or the filter size."
  },
  {
   "property": "C06",
   "status": "proved",
   "theorems": [
    "C06_render_is_filtered_average",
    "C06_average_between_samples"
   ],
   "note": "For every filter that vanishes outside its size (C64 shows both filters do)."
  },
  {
   "property": "C07",
   "status": "proved",
   "theorems": [
    "C07_constant_radiance"
   ],
   "note": ""
  },
  {
   "property": "C08",
   "status": "partial",
   "theorems": [
    "C08_ignores_old_contents_refuted",
    "C08_leak_is_old_over_weight",
    "C08_black_start_is_filtered_average"
   ],
   "note": "REFUTED: the parallel render never clears the image; C08_leak_is_old_over_weight gives the exact leak, C08_black_start_is_filtered_average the positive case."
  },
  {
   "property": "C09",
   "status": "proved",
   "theorems": [
    "C09_samples_per_pixel",
    "C09_total_samples",
    "C09_parallel_samples_per_pixel"
   ],
   "note": "Sampler outputs in [0,1)^2; single- and multi-threaded."
  },
  {
   "property": "C10",
   "status": "proved",
   "theorems": [
    "C10_defined_once"
   ],
   "note": "A BSDF of type \"null\" stores nothing and is therefore not a definition."
  },
  {
   "property": "C11",
   "status": "proved",
   "theorems": [
    "C11_one_node_per_name",
    "C11_references_resolved",
    "C11_object_references"
   ],
   "note": "One node per kind and name, stable under every continuation (C11_one_node_per_name); definitions and objects in the final state refer to exactly the nodes their names denote, forward references included."
  },
  {
   "property": "C12",
   "status": "proved",
   "theorems": [
    "C12_reserved_names"
   ],
   "note": "Reserved 'none' names are never registered, 'default' nodes always carry the built-in definition, the default material wraps the default BSDF."
  },
  {
   "property": "C13",
   "status": "partial",
   "theorems": [
    "C13_recovery_refuted",
    "C13_error_blocks_everything"
   ],
   "note": "REFUTED: the API clock is left running by every exception, so every later call and the flush raise 'api already active' and change nothing (C13_error_blocks_everything, all states, all continuations)."
  },
  {
   "property": "C14",
   "status": "partial",
   "theorems": [
    "C14_taken_name_refuted",
    "C14_clocked_object",
    "C14_unclocked_object"
   ],
   "note": "REFUTED in the repository's configuration (CLOCKING): the recursive call restarts the running clock and throws; free names always work, taken names never (C14_clocked_object). With the macros off the claim holds for all histories (C14_unclocked_object)."
  },
  {
   "property": "C15",
   "status": "proved",
   "theorems": [
    "C15_shape_object_correspondence",
    "C15_emitter_mesh"
   ],
   "note": "For every iteration order of the object table."
  },
  {
   "property": "C16",
   "status": "partial",
   "theorems": [
    "C16_shared_mesh_refuted",
    "C16_shared_mesh_behaviour"
   ],
   "note": "REFUTED: the mesh's instance number and transform are overwritten; all its shapes belong to the last user in iteration order and carry the product of all users' transforms (C16_shared_mesh_behaviour)."
  },
  {
   "property": "C17",
   "status": "proved",
   "theorems": [
    "C17_calls_compose_in_order",
    "C17_inverse_iff_calls_invertible",
    "C17_inverse_undoes"
   ],
   "note": "For every sequence of transform calls, relative to the last clear; degenerate rotation axes excluded."
  },
  {
   "property": "C18",
   "status": "proved",
   "theorems": [
    "C18_emitters_once",
    "C18_only_emitters"
   ],
   "note": "Both directions: each defined emitter exactly once in the right list; nothing else in the lists."
  },
  {
   "property": "C19",
   "status": "proved",
   "theorems": [
    "C19_accepted_iff_alternating",
    "C19_totals",
    "C19_first_error",
    "C19_independent",
    "C19_names_distinct",
    "C19_total_nonnegative",
    "C19_added"
   ],
   "note": "Clock bookkeeping over all call sequences; a clock added again starts from nothing (C19_added)."
  },
  {
   "property": "C20",
   "status": "partial",
   "theorems": [
    "C20_read_never_succeeds",
    "C20_round_trip_refuted",
    "C20_round_trip_is_undefined",
    "C20_times_recovered_date_permuted"
   ],
   "note": "REFUTED: reading back ClockerResults never succeeds on what to_string writes (C20_round_trip_refuted, C20_read_never_succeeds): the reader indexes past the fields (UB). Proved instead: which fields a corrected length would recover (C20_times_recovered_date_permuted)."
  },
  {
   "property": "C21",
   "status": "proved",
   "theorems": [
    "C21_path_clocks",
    "C21_whitted_clocks",
    "C21_amb_occ_clocks"
   ],
   "note": "Path, Whitted and ambient occlusion, for every scene/shader/random answer; OutOfFuel of the model only stands for unboundedly many null boundaries / unbounded Whitted recursion."
  },
  {
   "property": "C22",
   "status": "proved",
   "theorems": [
    "C22_inverse_exact",
    "C22_nonzero_det_is_necessary"
   ],
   "note": "Exact arithmetic; also uniqueness, and necessity of a non-zero determinant."
  },
  {
   "property": "C23",
   "status": "proved",
   "theorems": [
    "C23_stored_inverse_is_inverse",
    "C23_point_round_trip",
    "C23_affine_round_trip",
    "C23_product_applies_right_to_left",
    "C23_product_applies_right_to_left_vectors"
   ],
   "note": "For every transform obtainable from the constructors, products and inversion."
  },
  {
   "property": "C24",
   "status": "proved",
   "theorems": [
    "C24_normals_stay_perpendicular"
   ],
   "note": ""
  },
  {
   "property": "C25",
   "status": "proved",
   "theorems": [
    "C25_rotation_is_isometry",
    "C25_rotation_fixes_axis",
    "C25_rotation_det_one",
    "C25_rotation_angles_add",
    "C25_rotation_formula",
    "C25_rotation_inverse"
   ],
   "note": ""
  },
  {
   "property": "C26",
   "status": "proved",
   "theorems": [
    "C26_frame_orthonormal",
    "C26_frame_round_trip",
    "C26_local_z_is_cosine",
    "C26_spherical_direction"
   ],
   "note": ""
  },
  {
   "property": "C27",
   "status": "partial",
   "theorems": [
    "C27_max_refuted",
    "C27_neq_refuted",
    "C27_max_returns_minimum",
    "C27_max_right_iff_grey",
    "C27_maxValue_minValue"
   ],
   "note": "REFUTED: Vec3::max() returns the minimum; the exact value of every min/max helper is proved."
  },
  {
   "property": "C28",
   "status": "proved",
   "theorems": [
    "C28_expand_gives_smallest_box",
    "C28_from_empty",
    "C28_order_independent",
    "C28_merge_gives_smallest_box"
   ],
   "note": "Infinite (reset) boxes included through extended reals."
  },
  {
   "property": "C29",
   "status": "proved",
   "theorems": [
    "C29_slab_parameters",
    "C29_intersect_exact"
   ],
   "note": "Stronger: zero direction components are allowed. Finite near, near <= far."
  },
  {
   "property": "C30",
   "status": "proved",
   "theorems": [
    "C30_children_cover",
    "C30_children_disjoint",
    "C30_volume"
   ],
   "note": ""
  },
  {
   "property": "C31",
   "status": "proved",
   "theorems": [
    "C31_converted_table",
    "C31_normalized_table"
   ],
   "note": "Both constructions: set weights + convert, and running sums + normalize. The converted table has one superfluous trailing entry of probability 0."
  },
  {
   "property": "C32",
   "status": "partial",
   "theorems": [
    "C32_sample_refuted",
    "C32_sample_is_always_entry_zero",
    "C32_loop_finds_the_entry"
   ],
   "note": "REFUTED: sample returns the cdf value truncated to int instead of the entry, so every value up to 1 yields entry 0 (C32_sample_is_always_entry_zero); C32_loop_finds_the_entry shows the loop index minus one is the right answer."
  },
  {
   "property": "C33",
   "status": "proved",
   "theorems": [
    "C33_disk",
    "C33_sphere",
    "C33_hemisphere",
    "C33_cosine_hemisphere",
    "C33_cosine_power_hemisphere",
    "C33_cap",
    "C33_triangle"
   ],
   "note": "The Beckmann warp only throws and is not covered."
  },
  {
   "property": "C34",
   "status": "proved",
   "theorems": [
    "C34_uniform_sphere",
    "C34_uniform_hemisphere",
    "C34_cosine_hemisphere",
    "C34_cosine_power",
    "C34_cosine_power_negative",
    "C34_cap",
    "C34_disk",
    "C34_triangle",
    "C34_triangle_normalised"
   ],
   "note": "Stated as a full distribution: the preimage of every (height, azimuth) corner set has area equal to the integral of the density. Cosine power: exponents >= 0 in full, exponents in (-1,0) above the equator (the density is unbounded there). Beckmann throws."
  },
  {
   "property": "C35",
   "status": "proved",
   "theorems": [
    "C35_range",
    "C35_total_reflection",
    "C35_equal_indices",
    "C35_grazing"
   ],
   "note": "fresnel lies in [0,1], is 1 under total reflection and 0 for equal indices, for all positive indices and every cosine but 0; at cosine 0 it is NaN (0/0) when entering the denser side (C35_grazing)."
  },
  {
   "property": "C36",
   "status": "partial",
   "theorems": [
    "C36_angle_ignored",
    "C36_right_at_normal_incidence",
    "C36_refuted"
   ],
   "note": "REFUTED: the transmitted cosine is computed and then not used, so below the critical angle the result is ((ext-int)/(ext+int))^2 whatever the angle (C36_angle_ignored); right only at normal incidence (C36_right_at_normal_incidence)."
  },
  {
   "property": "C37",
   "status": "proved",
   "theorems": [
    "C37_reciprocal",
    "C37_opaque",
    "C37_reflectance",
    "C37_sampling_weight"
   ],
   "note": "Reciprocity, opacity, reflectance = albedo as an integral over the sphere, and sampling weight = albedo."
  },
  {
   "property": "C38",
   "status": "partial",
   "theorems": [
    "C38_mirror",
    "C38_dielectric",
    "C38_dielectric_refuted",
    "C38_grazing",
    "C38_along"
   ],
   "note": "REFUTED near grazing: SQRT returns 0 below 1e-3, so refracted directions near the critical angle (or any grazing transmission) are not unit vectors, and for cosine in (-1e-3,0) the ray stays on the same side (C38_dielectric_refuted). Exactly: in that band the ray runs along the surface, with squared length k^2 (1 - cos^2) for the ratio k of the indices (C38_grazing). Proved away from those bands (C38_dielectric) and for the mirror without restriction (C38_mirror)."
  },
  {
   "property": "C39",
   "status": "partial",
   "theorems": [
    "C39_phong_density",
    "C39_blinn_refuted"
   ],
   "note": "REFUTED for Blinn (C39_blinn_refuted: with zero specular part the reported density differs from the sampled one in every direction but the normal). Proved for Phong (C39_phong_density), exponents >= 0."
  },
  {
   "property": "C40",
   "status": "proved",
   "theorems": [
    "C40_inverse_square"
   ],
   "note": ""
  },
  {
   "property": "C41",
   "status": "partial",
   "theorems": [
    "C41_unit_direction_refuted",
    "C41_direction_as_given",
    "C41_spot_refuted"
   ],
   "note": "REFUTED: the constructors normalise their parameter and leave the member as given, so a directional light uses the vector as given (C41_direction_as_given) and the cone of a spot light is scaled (C41_spot_refuted)."
  },
  {
   "property": "C42",
   "status": "proved",
   "theorems": [
    "C42_index_in_range",
    "C42_probability",
    "C42_never_chosen"
   ],
   "note": "Index in range for every count (not only up to 2^24), in binary32 arithmetic; probability within relative 2^-24 of 1/n up to 2^24 lights; beyond, index 2^24+1 is never chosen (C42_never_chosen)."
  },
  {
   "property": "C43",
   "status": "proved",
   "theorems": [
    "C43_homogeneous",
    "C43_laws"
   ],
   "note": "constant medium, Homo estimator, through Media::transmittance; channels and adjacent segments"
  },
  {
   "property": "C44",
   "status": "partial",
   "theorems": [
    "C44_exact",
    "C44_step_independent_refuted",
    "C44_vanishes"
   ],
   "note": "REFUTED: the step length is never multiplied in, so a constant medium gives exp(-E*ceil(len/step)) (C44_exact), which tends to 0 as the steps shrink (C44_vanishes)"
  },
  {
   "property": "C45",
   "status": "partial",
   "theorems": [
    "C45_phase_normalised",
    "C45_phase_symmetric",
    "C45_hg_mean_cosine",
    "C45_eddington_refuted"
   ],
   "note": "REFUTED for EddingtonPhase only (ignores its parameter and is negative); isotropic, HG, Rayleigh, ellipsoidal, binomial are densities; HG mean cosine is g"
  },
  {
   "property": "C46",
   "status": "partial",
   "theorems": [
    "C46_isotropic",
    "C46_rayleigh",
    "C46_hg_draws",
    "C46_hg_refuted",
    "C46_ellipsoidal_draws",
    "C46_eddington_draws",
    "C46_eddington_refuted"
   ],
   "note": "REFUTED for HG, ellipsoidal and Eddington: they draw around -wo but report the value around wo; exact laws of the drawn direction proved; isotropic and Rayleigh exact"
  },
  {
   "property": "C47",
   "status": "proved",
   "theorems": [
    "C47_range",
    "C47_unbiased",
    "C47_constant_medium"
   ],
   "note": "range for all streams; unbiasedness and termination with probability 1 for continuous extinction below the majorant"
  },
  {
   "property": "C48",
   "status": "proved",
   "theorems": [
    "C48_signed_distance",
    "C48_sign",
    "C48_never_overestimates",
    "C48_box_surface"
   ],
   "note": "proved for all five shapes over the reals; sensible = non-negative radii, unit plane normal, box corners given as (max,min) as in the shipped scenes, distinct cylinder/cone end points"
  },
  {
   "property": "C49",
   "status": "partial",
   "theorems": [
    "C49_never_passes_a_surface",
    "C49_first_surface",
    "C49_finds_near_surfaces",
    "C49_mixed_scenes_refuted",
    "C49_complete_refuted"
   ],
   "note": "REFUTED in general: C49_mixed_scenes_refuted (boxes and cylinders report their corners in the opposite order to spheres, so in a mixed scene the ray starts behind the near face), C49_complete_refuted (2000-step limit). Proved: nothing inside the scene box is ever passed; hit within Epsilon of the named shape; correct for scenes of spheres and for single shapes; surfaces within SDF_STEPS*Epsilon are always found"
  },
  {
   "property": "C50",
   "status": "partial",
   "theorems": [
    "C50_exact",
    "C50_complete",
    "C50_in_parallelogram",
    "C50_unique",
    "C50_outside_refuted",
    "C50_small_refuted"
   ],
   "note": "REFUTED: the test checks v <= 1 instead of u + v <= 1, so it accepts the whole parallelogram spanned by the edges (C50_outside_refuted), and a determinant below 1e-8 is a miss, so small triangles are not hit (C50_small_refuted). Proved: exact characterisation of the hits (C50_exact), every ray meeting the triangle with a determinant of at least 1e-8 hits at that distance."
  },
  {
   "property": "C51",
   "status": "proved",
   "theorems": [
    "C51_nearest",
    "C51_order_independent",
    "C51_bad_index"
   ],
   "note": "Nearest hit over all faces by induction on the loop, last face wins ties, distance independent of the face order; an index out of range is undefined behaviour (C51_bad_index). The face test is the one of C50."
  },
  {
   "property": "C52",
   "status": "proved",
   "theorems": [
    "C52_shape",
    "C52_vertices",
    "C52_covers"
   ],
   "note": "Counts, index ranges, exact lattice and gap-free cover for every resolution >= 2 with and without terrain. The height field is any function of the two coordinates."
  },
  {
   "property": "C53",
   "status": "proved",
   "theorems": [
    "C53_nearest",
    "C53_estimate",
    "C53_too_few"
   ],
   "note": "Proved for every k >= 1. The estimate uses the k-1 nearest photons over the disc reaching to the k-th; with fewer than k photons the code reads past the end of its list (proved)."
  },
  {
   "property": "C54",
   "status": "partial",
   "theorems": [
    "C54_overrun_refuted",
    "C54_when_exactly",
    "C54_safe_room",
    "C54_one_bounce",
    "C54_photons",
    "C54_specular_hangs"
   ],
   "note": "REFUTED: for every num_photons = n and max_bounces = n+1 a closed diffuse scene writes past the array. Proved instead: exactly when a path overruns; never with one bounce; never with max_bounces-1 extra slots; on success exactly num photons lie on non-specular surfaces; an all-specular scene never terminates."
  },
  {
   "property": "C55",
   "status": "proved",
   "theorems": [
    "C55_bounce_limit",
    "C55_terminates"
   ],
   "note": "Bounds hold for every run, also one that fails; termination shown when rays do not meet null boundaries (the null loop is unbounded in the code, see C59)."
  },
  {
   "property": "C56",
   "status": "proved",
   "theorems": [
    "C56_materials_keep_light",
    "C56_materials_physical",
    "C56_sum_of_contributions",
    "C56_nonnegative",
    "C56_monotone"
   ],
   "note": "keeps_light: sampling does not touch emission/nee (true of all shaders)."
  },
  {
   "property": "C57",
   "status": "proved",
   "theorems": [
    "C57_zero_or_one",
    "C57_occlusion_ray"
   ],
   "note": "values, plus the law of the occlusion ray's direction about the geometric normal"
  },
  {
   "property": "C58",
   "status": "partial",
   "theorems": [
    "C58_whitted_values",
    "C58_surface_value",
    "C58_emission_once_refuted"
   ],
   "note": "REFUTED: on a non-specular surface the emission is added twice (C58_emission_once_refuted); C58_surface_value gives the exact value and that the claim holds iff the emission is 0."
  },
  {
   "property": "C59",
   "status": "proved",
   "theorems": [
    "C59_nearest_solid",
    "C59_exact",
    "C59_close_wall_missed",
    "C59_light_queries"
   ],
   "note": "intersect_non_null over any world whose hits along a line are the first of an ordered list: nearest solid surface, C59_exact when surfaces are 1/1000 apart, C59_close_wall_missed shows the tolerance is real."
  },
  {
   "property": "C60",
   "status": "proved",
   "theorems": [
    "C60_shadow_rays"
   ],
   "note": ""
  },
  {
   "property": "C61",
   "status": "partial",
   "theorems": [
    "C61_multi_exact",
    "C61_one_counted",
    "C61_samples_lost_refuted"
   ],
   "note": "REFUTED: of k samples only entry 0 is ever valid (C61_multi_exact), so at most one sample is counted (C61_one_counted)."
  },
  {
   "property": "C62",
   "status": "partial",
   "theorems": [
    "C62_in_bounds",
    "C62_cell",
    "C62_wide_refuted",
    "C62_nan_refuted"
   ],
   "note": "REFUTED: for images wider than 2^24 pixels float rounding of width-1 reads past the row (C62_wide_refuted), and a NaN coordinate converts to an undefined integer (C62_nan_refuted). Proved for every image up to 2^24 pixels per side and every real coordinate in binary32: the read is in bounds (C62_in_bounds), and exactly which pixel is read (C62_cell)."
  },
  {
   "property": "C63",
   "status": "partial",
   "theorems": [
    "C63_all",
    "C63_single_refuted",
    "C63_reference_refuted",
    "C63_nan_refuted"
   ],
   "note": "REFUTED: with -ui the exit code is 0 exactly when the test fails (C63_single_refuted), -uri always exits with -1 and evaluates the bare file name (C63_reference_refuted), and a NaN error passes (C63_nan_refuted). Proved for -u: exit code 0 iff every scene file of the test directory is within tolerance (C63_all)."
  },
  {
   "property": "C64",
   "status": "proved",
   "theorems": [
    "C64_box_filter",
    "C64_gauss_filter"
   ],
   "note": ""
  },
  {
   "property": "C65",
   "status": "proved",
   "theorems": [
    "C65_ray_directions_are_unit",
    "C65_pinhole_ray",
    "C65_distinct_film_positions_distinct_rays",
    "C65_thin_lens_focus",
    "C65_lens_origin",
    "C65_clip_planes",
    "C65_central_ray"
   ],
   "note": "Exact arithmetic. The thin lens is covered too."
  },
  {
   "property": "C66",
   "status": "proved",
   "theorems": [
    "C66_look_at_rigid",
    "C66_look_at_axes",
    "C66_look_at_maps"
   ],
   "note": "Also: uprightness of the image and unit determinant."
  },
  {
   "property": "C67",
   "status": "partial",
   "theorems": [
    "C67_sub_assign_refuted",
    "C67_sub_assign_right_iff",
    "C67_complex_field",
    "C67_complex3_ring",
    "C67_complex3_field_refuted"
   ],
   "note": "REFUTED for the three-component complex type (zero divisors, no field); the ordinary complex type is proved to be a field."
  },
  {
   "property": "C68",
   "status": "proved",
   "theorems": [
    "C68_count",
    "C68_monotone",
    "C68_bounds",
    "C68_density",
    "C68_inside"
   ],
   "note": ""
  },
  {
   "property": "C69",
   "status": "proved",
   "theorems": [
    "C69_start_order_fixed"
   ],
   "note": ""
  },
  {
   "property": "C71",
   "status": "partial",
   "theorems": [
    "C71_default_box_own_pixel",
    "C71_every_sample_counts_refuted"
   ],
   "note": "REFUTED: a sample exactly on a pixel boundary (sampler returned 0) has weight zero for every pixel; C71_default_box_own_pixel proves the claim for the open pixel."
  },
  {
   "property": "C72",
   "status": "partial",
   "theorems": [
    "C72_default_gauss_weighs_refuted",
    "C72_default_gauss_render_black"
   ],
   "note": "REFUTED: the default size is (0,0), every weight is zero, and C72_default_gauss_render_black shows each such render is black."
  },
  {
   "property": "C73",
   "status": "partial",
   "theorems": [
    "C73_max_index_refuted",
    "C73_max_index_right_iff"
   ],
   "note": "REFUTED: on a tie of the first two components above the third, index 2 is returned; C73 iff-theorem states exactly when the answer is right."
  },
  {
   "property": "C74",
   "status": "partial",
   "theorems": [
    "C74_overlaps_means_covered_by",
    "C74_overlaps_refuted",
    "C74_overlaps_sound"
   ],
   "note": "REFUTED: the query answers whether the other box covers this one (C74_overlaps_means_covered_by)."
  },
  {
   "property": "C75",
   "status": "partial",
   "theorems": [
    "C75_sample_refuted",
    "C75_sample_axis_refuted",
    "C75_sample_shifted",
    "C75_sample_right_iff",
    "C75_sample_axis",
    "C75_local_inverts"
   ],
   "note": "REFUTED: the minimum corner is not added (C75_sample_right_iff: right iff the minimum corner is the origin) and the per-axis versions use the x extent."
  },
  {
   "property": "C76",
   "status": "partial",
   "theorems": [
    "C76_triangle_density_refuted",
    "C76_triangle_density_exact",
    "C76_right_for_nonnegative_coordinates",
    "C76_other_densities_vanish_outside"
   ],
   "note": "REFUTED for the triangle: only the sum of the coordinates is tested, so points with a negative coordinate get density 2; proved for the other warps."
  },
  {
   "property": "C77",
   "status": "partial",
   "theorems": [
    "C77_only_first_triangle",
    "C77_area_sampling_refuted",
    "C77_point_outside_iff"
   ],
   "note": "REFUTED: only triangle 0 is ever sampled (C77_only_first_triangle), and values beyond its share give points outside it (C77_point_outside_iff)."
  },
  {
   "property": "C78",
   "status": "proved",
   "theorems": [
    "C78_first_definition_succeeds"
   ],
   "note": "Emitters additionally need the scene to exist (otherwise null dereference)."
  },
  {
   "property": "C79",
   "status": "partial",
   "theorems": [
    "C79_none_name_refuted",
    "C79_none_name_always_crashes"
   ],
   "note": "REFUTED: the lookup returns nullptr, which is dereferenced (C79_none_name_always_crashes)."
  },
  {
   "property": "C80",
   "status": "proved",
   "theorems": [
    "C80_complete_iff_flush",
    "C80_missing_mesh_reported"
   ],
   "note": "Iff, for every order of the three tables."
  },
  {
   "property": "C81",
   "status": "partial",
   "theorems": [
    "C81_named_filter_refuted",
    "C81_only_default_filter"
   ],
   "note": "REFUTED: no call defines filters, so any name but 'default' stays a null filter that the render loop dereferences (C81_only_default_filter)."
  },
  {
   "property": "C82",
   "status": "proved",
   "theorems": [
    "C82_normal_view",
    "C82_nice_normal_view",
    "C82_cosine_view",
    "C82_wireframe_view"
   ],
   "note": "All four debug views."
  },
  {
   "property": "C83",
   "status": "proved",
   "theorems": [
    "C83_render_clocks"
   ],
   "note": "Any film, any of the seven integrators."
  },
  {
   "property": "C84",
   "status": "proved",
   "theorems": [
    "C84_path_roulette_unbiased"
   ],
   "note": "Each component, via the Riemann integral over [0,1]."
  },
  {
   "property": "C85",
   "status": "partial",
   "theorems": [
    "C85_expected_value",
    "C85_roulette_unbiased_refuted"
   ],
   "note": "REFUTED: a terminated path returns 0 and drops the vertex's own emission and direct light; C85_expected_value gives the mean 0.95*(emission+nee)+albedo*v, unbiased iff the vertex contributes no light."
  },
  {
   "property": "C86",
   "status": "partial",
   "theorems": [
    "C86_sample_is_evaluate",
    "C86_phong_refuted",
    "C86_evaluate",
    "C86_evaluate_after_sample"
   ],
   "note": "REFUTED for Phong: evaluate() does not clamp the cosine, giving NaN or a negative colour for directions sample() returns (C86_phong_refuted). Proved for every other material, and for Phong within 90 degrees of the mirror direction (C86_sample_is_evaluate); there evaluating after sampling changes no field of the closure (C86_evaluate_after_sample), and evaluate never changes anything but the colour (C86_evaluate)."
  },
  {
   "property": "C87",
   "status": "partial",
   "theorems": [
    "C87_phong_reflectance",
    "C87_blinn_half_vectors",
    "C87_energy_refuted"
   ],
   "note": "REFUTED: the constructor scales its parameter after the member was initialised; the reflectance at normal incidence is kd + ks unscaled (C87_phong_reflectance), 2 for kd = ks = 1 (C87_energy_refuted). Blinn's lobe has the same normalisation over half vectors (C87_blinn_half_vectors)."
  },
  {
   "property": "C88",
   "status": "proved",
   "theorems": [
    "C88_never_leaves",
    "C88_enters"
   ],
   "note": "Refraction clause excludes the exact critical angle, where the transmitted direction is tangent to the surface."
  },
  {
   "property": "C89",
   "status": "partial",
   "theorems": [
    "C89_direction_and_colour",
    "C89_weight_refuted"
   ],
   "note": "REFUTED: sample() does not set the density, so the density of an earlier bounce divides the throughput (C89_weight_refuted: weight 2 pi after a diffuse bounce). Direction, colour, and the unchanged density are proved (C89_direction_and_colour)."
  },
  {
   "property": "C90",
   "status": "partial",
   "theorems": [
    "C90_diffuse_and_mirror",
    "C90_phong_refuted",
    "C90_blinn_refuted"
   ],
   "note": "REFUTED for Phong and Blinn: concrete samples below the surface with positive density. Proved for diffuse and mirror."
  },
  {
   "property": "C91",
   "status": "proved",
   "theorems": [
    "C91_path_geometry"
   ],
   "note": ""
  },
  {
   "property": "C92",
   "status": "partial",
   "theorems": [
    "C92_computed",
    "C92_no_media_partial",
    "C92_leaving_one_medium_partial",
    "C92_crossing_one_medium_partial",
    "C92_two_media_refuted",
    "C92_light_in_medium_refuted",
    "C92_missing_inside_refuted"
   ],
   "note": "REFUTED for two media behind each other (the gap is attenuated as well), for a light inside a medium (not attenuated), and for a null boundary without inside (undefined). C92_computed gives what is computed for every scene; it is right when no boundary has a medium, when leaving one medium, and up to 1/1000 when crossing one medium."
  },
  {
   "property": "C93",
   "status": "partial",
   "theorems": [
    "C93_distant_lights_refuted",
    "C93_scene_refuted"
   ],
   "note": "REFUTED: the distance of these lights is never set and always read, so evaluating one is undefined behaviour for every surface (C93_distant_lights_refuted), and the all-lights loop never completes with one in the list."
  },
  {
   "property": "C94",
   "status": "partial",
   "theorems": [
    "C94_counted_once",
    "C94_path_counted_once",
    "C94_wireframe_exact",
    "C94_wireframe_refuted"
   ],
   "note": "REFUTED for the wireframe shader, which never clears the flag (C94_wireframe_exact: emission counted at every vertex; C94_wireframe_refuted: counted twice). Proved for the simple shader with every material, on histories and on every run of the path integrator."
  },
  {
   "property": "C95",
   "status": "proved",
   "theorems": [
    "C95_one_light_unbiased"
   ],
   "note": ""
  },
  {
   "property": "C96",
   "status": "partial",
   "theorems": [
    "C96_negative_light_refuted",
    "C96_nonnegative_partial"
   ],
   "note": "REFUTED for lights within 1/1000 below the horizon (C96_negative_light_refuted); proved everywhere else."
  },
  {
   "property": "C97",
   "status": "proved",
   "theorems": [
    "C97_mesh_light"
   ],
   "note": ""
  },
  {
   "property": "C98",
   "status": "proved",
   "theorems": [
    "C98_spot_cone"
   ],
   "note": ""
  },
  {
   "property": "C99",
   "status": "proved",
   "theorems": [
    "C99_inverse",
    "C99_in_square"
   ],
   "note": ""
  },
  {
   "property": "C100",
   "status": "partial",
   "theorems": [
    "C100_cell_refuted",
    "C100_weight_exact",
    "C100_nearer_not_heavier_refuted"
   ],
   "note": "REFUTED: the cell is always 0 (C100_cell_refuted) and all lights outside the cell up to distance 10 have the same weight (C100_weight_exact)."
  },
  {
   "property": "C101",
   "status": "proved",
   "theorems": [
    "C101_point_light"
   ],
   "note": ""
  },
  {
   "property": "C102",
   "status": "partial",
   "theorems": [
    "C102_behind_null_refuted"
   ],
   "note": "REFUTED: after the null material no lights are sampled at the next surface (C102_behind_null_refuted for every scene and path); C102_direct_case shows the same surface lit when seen directly."
  },
  {
   "property": "C103",
   "status": "partial",
   "theorems": [
    "C103_agree_iff",
    "C103_agree_refuted"
   ],
   "note": "REFUTED: homo uses density*sigma_t, ratio tracking density*sigma_t^2; they agree iff sigma_t is 1 in the channel (C103_agree_iff)"
  },
  {
   "property": "C104",
   "status": "partial",
   "theorems": [
    "C104_escape",
    "C104_gray",
    "C104_coloured_refuted"
   ],
   "note": "REFUTED for coloured media: Color3f::max() returns the smallest channel; exact law (C104_escape) and gray media proved"
  },
  {
   "property": "C105",
   "status": "partial",
   "theorems": [
    "C105_exponential",
    "C105_empty",
    "C105_consistent_refuted"
   ],
   "note": "REFUTED: the law is exponential with density*sigma_t^2, the reported transmittance uses density*sigma_t"
  },
  {
   "property": "C106",
   "status": "proved",
   "theorems": [
    "C106_after_start",
    "C106_march",
    "C106_march_law"
   ],
   "note": "all three samplers"
  },
  {
   "property": "C107",
   "status": "partial",
   "theorems": [
    "C107_weight",
    "C107_defined_refuted"
   ],
   "note": "REFUTED when a channel neither absorbs nor scatters (0/0); proved when all channels of sigma_t are positive"
  },
  {
   "property": "C108",
   "status": "proved",
   "theorems": [
    "C108_absorbing",
    "C108_scattering"
   ],
   "note": "both branches of Media::sample"
  },
  {
   "property": "C109",
   "status": "proved",
   "theorems": [
    "C109_moves"
   ],
   "note": "all estimators and samplers"
  },
  {
   "property": "C110",
   "status": "partial",
   "theorems": [
    "C110_max",
    "C110_sphere",
    "C110_colour_refuted"
   ],
   "note": "REFUTED for coloured sphere densities (first channel used for all); bounds and support proved"
  },
  {
   "property": "C111",
   "status": "partial",
   "theorems": [
    "C111_unshared",
    "C111_own",
    "C111_shared_refuted"
   ],
   "note": "REFUTED for media sharing a density node: preProcess overwrites sigma_t, last medium wins; unshared proved"
  },
  {
   "property": "C112",
   "status": "partial",
   "theorems": [
    "C112_survival",
    "C112_surface_density",
    "C112_medium_density",
    "C112_linear_medium_refuted"
   ],
   "note": "REFUTED for LinearTrans::mediumMedium (a box of total 1/500 instead of a point mass); everything else proved (Davis for depth > 1e-4, below it the code returns 1)"
  },
  {
   "property": "C113",
   "status": "partial",
   "theorems": [
    "C113_reciprocal",
    "C113_eval",
    "C113_sigma_bar",
    "C113_davis_channels_refuted",
    "C113_davis_first",
    "C113_channels"
   ],
   "note": "REFUTED: Davis uses the first channel of the depth for all; reciprocity, eval and sigmaBar proved"
  },
  {
   "property": "C114",
   "status": "partial",
   "theorems": [
    "C114_exponential",
    "C114_linear_medium",
    "C114_linear_surface",
    "C114_linear_surface_refuted",
    "C114_davis"
   ],
   "note": "REFUTED for LinearTrans from a surface (interval shorter by 1e-5); exponential, linear from the medium exact; Davis search bracket 4e-6"
  },
  {
   "property": "C115",
   "status": "partial",
   "theorems": [
    "C115_environment_sum",
    "C115_interpolated_refuted"
   ],
   "note": "REFUTED for InterpEnvironment, whose evaluate throws; sum proved otherwise"
  },
  {
   "property": "C116",
   "status": "proved",
   "theorems": [
    "C116_wire",
    "C116_material"
   ],
   "note": "wireframe_material.cpp"
  },
  {
   "property": "C117",
   "status": "partial",
   "theorems": [
    "C117_sphere_box",
    "C117_boxes_refuted",
    "C117_either_order"
   ],
   "note": "REFUTED for all shapes but spheres (exact characterisation: only degenerate ones are contained, planes never). Proved: sphere boxes; the boxes read with corners in either order"
  },
  {
   "property": "C118",
   "status": "proved",
   "theorems": [
    "C118_nearest",
    "C118_order_independent",
    "C118_union_distance"
   ],
   "note": "proved"
  },
  {
   "property": "C119",
   "status": "partial",
   "theorems": [
    "C119_hit_record",
    "C119_sphere_outward",
    "C119_plane_normal",
    "C119_plane_normal_refuted",
    "C119_tilted_plane_refuted"
   ],
   "note": "REFUTED for planes: within the hit tolerance the finite differences straddle the unsigned plane and give a wrong normal. Proved: unit normal, orthonormal frames, offset point, outward sphere normals, exact plane normals beyond Epsilon"
  },
  {
   "property": "C120",
   "status": "partial",
   "theorems": [
    "C120_range_refuted"
   ],
   "note": "REFUTED: the range of the ray is never read; a hit beyond far is reported"
  },
  {
   "property": "C121",
   "status": "proved",
   "theorems": [
    "C121_smooth_union"
   ],
   "note": "proved"
  },
  {
   "property": "C122",
   "status": "proved",
   "theorems": [
    "C122_segment_only",
    "C122_flight_segment_only",
    "C122_unsupported"
   ],
   "note": "proved"
  },
  {
   "property": "C123",
   "status": "partial",
   "theorems": [
    "C123_position",
    "C123_geometric_frame",
    "C123_shading_frame",
    "C123_uv",
    "C123_side_refuted"
   ],
   "note": "REFUTED part: because hits outside the triangle are accepted, interpolation extrapolates and the shading normal can point to the other side although all vertex normals agree (C123_side_refuted). Proved for barycentric weights in the triangle."
  },
  {
   "property": "C124",
   "status": "partial",
   "theorems": [
    "C124_triangle_box",
    "C124_mesh_box",
    "C124_area",
    "C124_face_centroid",
    "C124_mesh_centroid",
    "C124_scene_bounds",
    "C124_scene_bounds_refuted"
   ],
   "note": "REFUTED part: scene bounds only contain the origin and the meshes of objects with an emitter; other meshes keep the reset box (C124_scene_bounds_refuted; exact set proved in C124_scene_bounds)."
  },
  {
   "property": "C125",
   "status": "partial",
   "theorems": [
    "C125_loads",
    "C125_well_formed",
    "C125_plain_index",
    "C125_polygons_rejected",
    "C125_bad_index_refuted",
    "C125_zero_index_refuted",
    "C125_two_indices",
    "C125_stops",
    "C125_no_number",
    "C125_no_texture_refuted"
   ],
   "note": "REFUTED part: out-of-range and zero indices are accepted and are undefined behaviour when the mesh is intersected; p//n throws. Proved: what is loaded, also for corners p and p/t, and that reading an index stops at the first character that is no digit. Numbers behind v, vt, vn are taken as read by operator>>."
  },
  {
   "property": "C126",
   "status": "partial",
   "theorems": [
    "C126_blend",
    "C126_on_sphere",
    "C126_unit_normals",
    "C126_face_normals",
    "C126_no_normals_refuted",
    "C126_radius",
    "C126_radius_refuted",
    "C126_coordinates",
    "C126_never_finite_refuted"
   ],
   "note": "REFUTED: the shader runs before the centroid and bounding box are computed, so no coordinate of any vertex is a number afterwards (C126_never_finite_refuted); meshes without normals are undefined behaviour; in a box whose smallest extents along x and y are equal the radius is the largest extent (C126_radius_refuted). Proved for a proper centroid and radius: the radius, the blend and unit normals."
  },
  {
   "property": "C127",
   "status": "proved",
   "theorems": [
    "C127_unit_normals",
    "C127_upper_side",
    "C127_triangles_face_up",
    "C127_flat"
   ],
   "note": "The height field is any function; float rounding not modelled."
  },
  {
   "property": "C128",
   "status": "partial",
   "theorems": [
    "C128_reach",
    "C128_near",
    "C128_radius_refuted",
    "C128_render"
   ],
   "note": "REFUTED: both queries compare the squared distance with the radius. Proved instead: exactly the photons nearer than sqrt(radius) are gathered, over the disc of radius sqrt(radius); the renderer's 0.01 means a tenth."
  },
  {
   "property": "C129",
   "status": "partial",
   "theorems": [
    "C129_total",
    "C129_normalised_refuted"
   ],
   "note": "REFUTED: powers are divided by the number of stored photons. Proved instead: with one point light and one bounce the map always holds the whole power of the light, however many paths missed."
  },
  {
   "property": "C130",
   "status": "partial",
   "theorems": [
    "C130_unbiased",
    "C130_no_red_refuted",
    "C130_black",
    "C130_diffuse"
   ],
   "note": "REFUTED for powers without red: the probability is 0/0 and the path goes on with powers that are not numbers. Proved: unbiased in every channel when the power has some red; a black surface ends the path unless the random number is exactly 0."
  },
  {
   "property": "C131",
   "status": "partial",
   "theorems": [
    "C131_power",
    "C131_emits",
    "C131_other_refuted"
   ],
   "note": "REFUTED for every light but the point light (sample_ray throws) and for scenes without lights (out of range). Proved for point lights: power times the number of lights."
  },
  {
   "property": "C132",
   "status": "proved",
   "theorems": [
    "C132_identity"
   ],
   "note": ""
  },
  {
   "property": "C133",
   "status": "partial",
   "theorems": [
    "C133_range",
    "C133_channels",
    "C133_third_refuted"
   ],
   "note": "REFUTED: the third channel of a sine texture never varies whatever its amplitude and frequency (C133_third_refuted). Proved: the range of every channel, and that the first depends on the distance to the centre only and the second on v only."
  },
  {
   "property": "C134",
   "status": "partial",
   "theorems": [
    "C134_scenes",
    "C134_missing_refuted",
    "C134_codes"
   ],
   "note": "REFUTED: -s, -ui or -uri as last argument reads argv[argc], a null pointer (C134_missing_refuted). Proved: without a test flag exactly the scene of the last -s is rendered (C134_scenes) and every exit code is 0 or -1 (C134_codes)."
  },
  {
   "property": "C135",
   "status": "proved",
   "theorems": [
    "C135_names",
    "C135_three_digits",
    "C135_selected"
   ],
   "note": ""
  },
  {
   "property": "C136",
   "status": "proved",
   "theorems": [
    "C136_block_read_as_written",
    "C136_file_read_as_written"
   ],
   "note": "Proved for every kind of block and whole files. A document is a parsed tree (rapidjson itself is not in the repository). The parameters that the parser cannot read (C137) are excluded by the specification 'says'."
  },
  {
   "property": "C137",
   "status": "partial",
   "theorems": [
    "C137_texture_scale_refuted",
    "C137_texture_behaviour",
    "C137_media_coefficients_refuted",
    "C137_camera_vectors_refused"
   ],
   "note": "REFUTED: the scale of a texture is only read when there is a member named proxy, and the parser then fails if there is no scale (C137_texture_behaviour is the exact behaviour); every medium of a scene file has absorption 1 and scattering 0 (so by C108 it never scatters); a camera given by origin, target or up is refused, lookat works (C136)."
  },
  {
   "property": "C138",
   "status": "proved",
   "theorems": [
    "C138_load"
   ],
   "note": "Proved end to end (parser and API) with the clocking configuration of the repository: distinct usable names, one scene block before emitters and accelerator."
  },
  {
   "property": "C139",
   "status": "partial",
   "theorems": [
    "C139_order_immaterial",
    "C139_transforms_in_order",
    "C139_duplicates_refuted"
   ],
   "note": "REFUTED for duplicates: in an object the last of two equal members counts, elsewhere the first. Proved: without duplicates the order is immaterial for every block but objects and emitters whatever they contain, and for all meaningful blocks as long as transforms keep their order."
  },
  {
   "property": "C140",
   "status": "partial",
   "theorems": [
    "C140_scene_first",
    "C140_block_order_refuted"
   ],
   "note": "REFUTED: an emitter or accel block before the scene block crashes. Proved instead: among files with usable distinct names exactly those with the scene first (and only one scene) are loaded, all other orders are fine."
  },
  {
   "property": "C141",
   "status": "partial",
   "theorems": [
    "C141_missing_file_refuted",
    "C141_unknown_block_refuted",
    "C141_unknown_accel_refuted",
    "C141_unknown_class_refused"
   ],
   "note": "REFUTED: a missing or unparsable file and an unknown block crash (unchecked FILE pointer, assert) and an accelerator of unknown class is silently ignored. Proved: an unknown class in every other block is refused."
  },
  {
   "property": "C142",
   "status": "proved",
   "theorems": [
    "C142_bounce_limit",
    "C142_terminates"
   ],
   "note": "Both integrators (volpath, volpath_nonexp), any finite media/shader/light-sampling programs. Termination for scenes given by the surfaces on each line (rigid lines, at most K surfaces), with an explicit fuel bound; a nested-boundary scene meeting it is given."
  },
  {
   "property": "C143",
   "status": "proved",
   "theorems": [
    "C143_sum_of_contributions",
    "C143_history",
    "C143_nonnegative"
   ],
   "note": "vol_history states the order, geometry and carried weights; the value is vol_estimate of it. Sum proved for shaders whose sample() keeps emission and light samples (all materials of Model/Bsdf.v)."
  },
  {
   "property": "C144",
   "status": "proved",
   "theorems": [
    "C144_no_media"
   ],
   "note": "Runs compared in a world whose wall clock is separate from the scene and sampler; null shapes excluded (the path integrator skips them)."
  },
  {
   "property": "C145",
   "status": "partial",
   "theorems": [
    "C145_media_tracked",
    "C145_surroundings_lost_refuted"
   ],
   "note": "REFUTED in the second half: leaving an object that only names an inside medium the path is in no medium, the medium around it is lost (concrete run, radiance 2 instead of 1). First half proved for all runs: C145_media_tracked."
  },
  {
   "property": "C146",
   "status": "partial",
   "theorems": [
    "C146_counting_rule",
    "C146_counted_once_partial",
    "C146_counted_twice_refuted"
   ],
   "note": "REFUTED: camera or specular vertex, scattering event, lamp: counted at the event and again at the lamp (concrete run). Exact rule proved for all runs (counted_late), and counting once on paths without such an event."
  },
  {
   "property": "C147",
   "status": "partial",
   "theorems": [
    "C147_isotropic_partial",
    "C147_phase_refuted"
   ],
   "note": "REFUTED: the phase value of the sampled direction is used, so the direct light of one event differs by a factor 27 for two samples of the next direction (Henyey-Greenstein). Proved for phase functions that do not depend on direction."
  },
  {
   "property": "C148",
   "status": "partial",
   "theorems": [
    "C148_environment_refuted"
   ],
   "note": "REFUTED: in an empty scene the radiance is the environment itself whatever medium the path is in, for all media and cameras."
  },
  {
   "property": "C149",
   "status": "proved",
   "theorems": [
    "C149_medium_roulette"
   ],
   "note": "Per channel, as an integral over the random number."
  },
  {
   "property": "C150",
   "status": "proved",
   "theorems": [
    "C150_clocks",
    "C150_render_clocks"
   ],
   "note": "Stated for single calls and for whole renders (clocks of the ray accelerator and the renderer)."
  },
  {
   "property": "C151",
   "status": "partial",
   "theorems": [
    "C151_transmittance",
    "C151_clear",
    "C151_no_inside_refuted",
    "C151_open_shape_refuted"
   ],
   "note": "REFUTED for boundaries without an inside medium (null pointer followed) and for open shapes (distance of the camera to the first surface taken as depth); otherwise proved."
  },
  {
   "property": "C152",
   "status": "partial",
   "theorems": [
    "C152_flags_given",
    "C152_unset_refuted",
    "C152_flags_refuted"
   ],
   "note": "REFUTED: volpath passes an uninitialised flag; volpath_nonexp passes the flag of the segment that ends to light sampling, and resets it at a boundary after the first vertex (concrete run). Exact rule proved for all runs (flags_given)."
  },
  {
   "property": "C153",
   "status": "partial",
   "theorems": [
    "C153_sample_rule",
    "C153_stale_samples_refuted"
   ],
   "note": "REFUTED: a specular surface after a scattering event delivers the light samples of the event again (concrete run). Exact rule proved for all runs (samples_late)."
  },
  {
   "property": "C154",
   "status": "partial",
   "theorems": [
    "C154_lamp_behind_refuted",
    "C154_skipped_exact"
   ],
   "note": "REFUTED: a light on the shape behind the event is skipped, whatever the random number; exact rule proved."
  },
  {
   "property": "C155",
   "status": "proved",
   "theorems": [
    "C155_reseed",
    "C155_rewind",
    "C155_counter",
    "C155_copy"
   ],
   "note": "For Independent, the only class that works (C160); pcg32 is a parameter.  C155_counter: nextSample only counts and leaves the numbers alone."
  },
  {
   "property": "C156",
   "status": "partial",
   "theorems": [
    "C156_image_from_stream",
    "C156_image",
    "C156_seed_has_no_effect",
    "C156_tiles",
    "C156_seed_matters_refuted"
   ],
   "note": "REFUTED: nobody calls preProcess or reseed on the sampler of a scene, so every render reads the stream of a default-constructed pcg32 (image theorem without the seed; same image for any two seeds; same tile samplers); a concrete scene where seeding would change the image."
  },
  {
   "property": "C157",
   "status": "partial",
   "theorems": [
    "C157_negative_count_refuted",
    "C157_rounds_each_pixel"
   ],
   "note": "REFUTED for negative counts: the count is converted to unsigned and the loop overflows an int; for counts from 0 each pixel gets exactly that many samples."
  },
  {
   "property": "C158",
   "status": "partial",
   "theorems": [
    "C158_same_numbers",
    "C158_reproducible_refuted"
   ],
   "note": "REFUTED: the order of evaluation of the constructor arguments decides the components (two conforming orders, two images). Proved: all orders use the same numbers and leave the same state."
  },
  {
   "property": "C159",
   "status": "partial",
   "theorems": [
    "C159_plain_copy_refuted",
    "C159_unset"
   ],
   "note": "REFUTED: the sample count of the copy is uninitialised; the numbers are those of the seed."
  },
  {
   "property": "C160",
   "status": "proved",
   "theorems": [
    "C160_never_a_number",
    "C160_api_makes_independent"
   ],
   "note": ""
  },
  {
   "property": "C161",
   "status": "partial",
   "theorems": [
    "C161_resampled",
    "C161_right_iff",
    "C161_target_refuted"
   ],
   "note": "REFUTED unless the image has the aspect of the camera film (iff): the projection is computed for the old film, so the picture is the camera's own picture stretched to the image (exact)."
  },
  {
   "property": "C162",
   "status": "partial",
   "theorems": [
    "C162_last_wins",
    "C162_both_sampled_refuted"
   ],
   "note": "REFUTED: only the last object in the iteration order of the object table that names the emitter is sampled (C162_last_wins); the order decides which one."
  },
  {
   "property": "C163",
   "status": "partial",
   "theorems": [
    "C163_freed_exactly",
    "C163_defined_iff",
    "C163_unused_photon_refuted",
    "C163_leak_refuted"
   ],
   "note": "REFUTED: boundaries, all but the last pdf of an emitter, the own image and the transmittance-function nodes with their contents are never deleted; an unused photon integrator makes clean-up undefined. Proved instead: the deleted set is exactly the created set minus these, without repetition, and clean-up is defined iff there is no unused photon integrator."
  },
  {
   "property": "C164",
   "status": "proved",
   "theorems": [
    "C164_isolated",
    "C164_needs_initialize",
    "C164_mode"
   ],
   "note": "Process state is the API instance, the clock pointer and the global mode; the mode clause is for CLOCKING builds (the shipped configuration)."
  },
  {
   "property": "C165",
   "status": "partial",
   "theorems": [
    "C165_right_iff",
    "C165_meshes_only",
    "C165_wrong_mesh_refuted"
   ],
   "note": "REFUTED when a distance shape stands before a mesh: geometry numbers count meshes, the shape table counts all shapes (ray_embree.cpp:87). Proved: right for every Embree iff no distance shape stands before a mesh; never out of range."
  },
  {
   "property": "C166",
   "status": "partial",
   "theorems": [
    "C166_sdf_mode_iff",
    "C166_mesh_mode",
    "C166_unseen_refuted"
   ],
   "note": "REFUTED: in mesh mode (the default) distance shapes are invisible; in distance mode a single mesh makes every ray undefined behaviour (a cast to the wrong class). Both directions proved exactly."
  },
  {
   "property": "C167",
   "status": "proved",
   "theorems": [
    "C167_average",
    "C167_relative"
   ],
   "note": ""
  },
  {
   "property": "C168",
   "status": "partial",
   "theorems": [
    "C168_late_samples_refuted"
   ],
   "note": "REFUTED: the sum of weights of a pixel saturates at 2^24, so after 2^24 samples of value 0 the next m samples of value 2 give m/2^23 instead of 2m/(2^24+m) (proved for every m up to 2^23); up to 2^24 samples C167 bounds the error."
  },
  {
   "property": "C169",
   "status": "partial",
   "theorems": [
    "C169_local",
    "C169_neighbours_spoilt_refuted"
   ],
   "note": "REFUTED: such a sample also spoils every neighbouring pixel whose footprint it touches (weight 0 times infinity is NaN) as soon as that pixel has a sample of its own; proved as an implication for all films and lists. Proved: samples that do not touch a pixel do not change it (C169_local)."
  },
  {
   "property": "C170",
   "status": "partial",
   "theorems": [
    "C170_exact",
    "C170_constant_refuted"
   ],
   "note": "REFUTED: seven samples of 0.1f give another float. Proved: exact whenever n times the integer significand is at most 2^24."
  },
  {
   "property": "C171",
   "status": "partial",
   "theorems": [
    "C171_counted_iff",
    "C171_safe",
    "C171_lost_refuted"
   ],
   "note": "REFUTED: at pixel 4096 the offset 2^-13 is rounded away, the position is on the border and counts for no pixel. Proved: the exact condition (position strictly inside after rounding) and a margin that guarantees it."
  },
  {
   "property": "C172",
   "status": "proved",
   "theorems": [
    "C172_index_valid",
    "C172_fair",
    "C172_reachable"
   ],
   "note": ""
  },
  {
   "property": "C173",
   "status": "proved",
   "theorems": [
    "C173_seeds",
    "C173_injective"
   ],
   "note": ""
  },
  {
   "property": "C174",
   "status": "partial",
   "theorems": [
    "C174_stops_before",
    "C174_starts_after",
    "C174_far_light_refuted"
   ],
   "note": "REFUTED: true exactly up to distance 2^15 (proved as iff); beyond, Epsilon is absorbed and the end of the shadow ray is the light itself."
  },
  {
   "property": "C175",
   "status": "partial",
   "theorems": [
    "C175_open",
    "C175_closed",
    "C175_open_found",
    "C175_closed_found",
    "C175_far_surface_refuted"
   ],
   "note": "REFUTED when the accelerator reports surfaces at the start of a ray: the first null surface at distance 2^15 or more is found again for ever (proved for every such scene). Proved: always ends when surfaces are reported strictly after the start, and when all null surfaces are nearer than 2^15."
  },
  {
   "property": "C176",
   "status": "partial",
   "theorems": [
    "C176_walk",
    "C176_shadow_ray",
    "C176_looked_through_refuted"
   ],
   "note": "REFUTED: SDFAccel ignores the near end of the ray, so the walk meets the same boundary again for ever. C176_walk and C176_shadow_ray give the exact result for every scene, ray and fuel; C176_looked_through_refuted is a null ball before a solid ball on which neither the path nor the shadow ray ends."
  },
  {
   "property": "C177",
   "status": "partial",
   "theorems": [
    "C177_shadowed_iff",
    "C177_shadow_has_cause",
    "C177_before_the_light_refuted"
   ],
   "note": "REFUTED: SDFAccel ignores the far end of the ray. C177_shadowed_iff: shadowed iff the whole half-line through the light meets a shape; C177_shadow_has_cause: then some solid lies within Epsilon of the half-line; C177_before_the_light_refuted: a ball behind the light shadows it."
  },
  {
   "property": "C178",
   "status": "partial",
   "theorems": [
    "C178_sphere",
    "C178_wall_refuted"
   ],
   "note": "REFUTED for planes: a wall seen head-on is reported with a normal inside the wall, and then no point light anywhere lights it (C178_wall_refuted). C178_sphere proves the property for a ball of radius at least Epsilon seen from outside, for every direction above the tangent plane by 2 Epsilon / distance."
  },
  {
   "property": "C179",
   "status": "proved",
   "theorems": [
    "C179_overview"
   ],
   "note": ""
  },
  {
   "property": "C180",
   "status": "partial",
   "theorems": [
    "C180_links_work",
    "C180_own_page",
    "C180_home_refuted"
   ],
   "note": "REFUTED for a test called home: its page is overwritten by the overview (C180_home_refuted). For every other test the page is its own (C180_own_page), and every link of the overview leads to a written page (C180_links_work)."
  },
  {
   "property": "C181",
   "status": "partial",
   "theorems": [
    "C181_own_images",
    "C181_images_exist",
    "C181_positive_error_refuted"
   ],
   "note": "REFUTED: the positive error image of every test but test_001 is written and not shown; each page shows that of test_001 instead (C181_positive_error_refuted). All other pictures are the test's own (C181_own_images), and every image on the page is written by a normal and a reference run when test_001 is among the tests (C181_images_exist)."
  },
  {
   "property": "C182",
   "status": "partial",
   "theorems": [
    "C182_row",
    "C182_graphs",
    "C182_squared_error_refuted"
   ],
   "note": "REFUTED for the squared error: the page asks for _MSE.png, the script draws _mse.png (C182_squared_error_refuted; a clash on case-sensitive file systems). C182_row and C182_graphs prove the property for every record and each of the other 27 graphs."
  },
  {
   "property": "C183",
   "status": "partial",
   "theorems": [
    "C183_deleted_refuted",
    "C183_folder",
    "C183_drawn",
    "C183_others_refuted",
    "C183_one_row_each"
   ],
   "note": "REFUTED: the folder deleted is named relative to the working directory and never the one that holds the graphs (C183_deleted_refuted, for all directories without blanks in the names), and a blank in a name deletes a folder of another name (C183_others_refuted). C183_one_row_each proves the part on records."
  },
  {
   "property": "C184",
   "status": "partial",
   "theorems": [
    "C184_solid",
    "C184_medium",
    "C184_direct_light",
    "C184_no_medium_refuted",
    "C184_beyond_refuted",
    "C184_open_refuted",
    "C184_wall_behind_refuted"
   ],
   "note": "REFUTED for null shapes: one without a medium named inside is undefined behaviour (C184_no_medium_refuted), everything beyond the far side of a shape with a medium is black (C184_beyond_refuted, C184_wall_behind_refuted), and in an open shape the medium is sampled up to the distance of the camera (C184_open_refuted). C184_solid and C184_medium prove equality with one bounce of volpath, random number by random number, when the first surface is solid or a medium entered from outside lies before a solid surface; C184_direct_light gives the value."
  },
  {
   "property": "C185",
   "status": "proved",
   "theorems": [
    "C185_clocks",
    "C185_render_clocks"
   ],
   "note": "For scenes in which every null shape has a medium node inside; otherwise C184_no_medium_refuted applies."
  },
  {
   "property": "C186",
   "status": "proved",
   "theorems": [
    "C186_renders_iff"
   ],
   "note": ""
  },
  {
   "property": "C187",
   "status": "partial",
   "theorems": [
    "C187_members",
    "C187_defaults",
    "C187_ignored_refuted",
    "C187_camera_refuted",
    "C187_material_refuted",
    "C187_scene_defaults_refuted"
   ],
   "note": "REFUTED: the sampler's \"spp\" and \"seed2\", the object's \"material\" and the emitter's \"mesh\", \"material\" and \"pos\" are ignored whatever they say (C187_ignored_refuted); the camera's \"origin\", \"target\" and \"up\" and the block \"material\" make every file fail (C187_camera_refuted, C187_material_refuted); a scene that leaves out its integrator, sampler or camera loads but can never be rendered, where the documentation promises defaults (C187_scene_defaults_refuted). Proved instead: all other documented members are read as written and have their documented defaults (C187_members, C187_defaults)."
  },
  {
   "property": "C188",
   "status": "proved",
   "theorems": [
    "C188_path",
    "C188_whitted",
    "C188_volpath",
    "C188_image",
    "C188_threads"
   ],
   "note": "All lights of a scene scaled at once; the failure of a light sample is the same in both scenes."
  },
  {
   "property": "C189",
   "status": "proved",
   "theorems": [
    "C189_path",
    "C189_whitted",
    "C189_volpath",
    "C189_views",
    "C189_image"
   ],
   "note": "The distance sampling and the transmittance of media are assumed to move with the scene (stated as hypotheses); meshes and the accelerator likewise."
  },
  {
   "property": "C190",
   "status": "proved",
   "theorems": [
    "C190_bounded"
   ],
   "note": "Phong and Blinn are left out: their weights exceed one (C90)."
  },
  {
   "property": "C191",
   "status": "proved",
   "theorems": [
    "C191_furnace"
   ],
   "note": "The path leaves the scene exactly if the log of the run contains a ray that meets nothing."
  },
  {
   "property": "C192",
   "status": "partial",
   "theorems": [
    "C192_unit",
    "C192_tiny_refuted",
    "C192_huge_refuted"
   ],
   "note": "REFUTED outside a range of sizes: C192_tiny_refuted (every vector with components below 2^-75 becomes non-finite) and C192_huge_refuted (every vector with a component of at least 2^64 becomes the zero vector). Between 2^-50 and 2^60 the property holds (C192_unit)."
  },
  {
   "property": "C193",
   "status": "partial",
   "theorems": [
    "C193_safe",
    "C193_normalized",
    "C193_bounce_refuted"
   ],
   "note": "REFUTED for rays that have bounced: C193_bounce_refuted gives a normalised ray and mirror normal whose reflection has y = 1 + 2^-23, so that acos is not a number and the read is undefined behaviour, for every image. Proved for every direction with y in [-1,1] (C193_safe), hence every normalised one (C193_normalized)."
  },
  {
   "property": "C194",
   "status": "proved",
   "theorems": [
    "C194_disk",
    "C194_sphere",
    "C194_hemisphere",
    "C194_cap"
   ],
   "note": "sine and cosine are parameters; the length is stated relative to the error e of sn^2 + cs^2 = 1. Warps in exact arithmetic: C33, C34."
  },
  {
   "property": "C195",
   "status": "proved",
   "theorems": [
    "C195_finite"
   ],
   "note": "What the vertices contribute (light, albedo, density, cosine, draw) is given; their values in exact arithmetic are C190."
  },
  {
   "property": "C196",
   "status": "partial",
   "theorems": [
    "C196_finite",
    "C196_zero_draw_refuted"
   ],
   "note": "REFUTED for a draw of exactly 0 inside a medium: C196_zero_draw_refuted (opaque medium before a surface: the sample is not a number, whatever follows). Finite and bounded when draws inside media are not 0 (C196_finite)."
  },
  {
   "property": "C197",
   "status": "proved",
   "theorems": [
    "C197_estimate"
   ],
   "note": "Albedo * cosine / density is 0 or at least om with om^n >= 2^-60, and lights are 0 or at least 2^-60: below this the relative error is not bounded."
  },
  {
   "property": "C198",
   "status": "proved",
   "theorems": [
    "C198_path",
    "C198_whitted",
    "C198_volpath",
    "C198_image",
    "C198_threads",
    "C198_groups"
   ],
   "note": "Proved for arbitrary strengths that add, per light; a failing light sample ends the render and is not claimed about. In exact arithmetic (rounding of one camera sample: C197)."
  },
  {
   "property": "C199",
   "status": "proved",
   "theorems": [
    "C199_average",
    "C199_light",
    "C199_grid",
    "C199_scene",
    "C199_lamps"
   ],
   "note": "Only partly a claim about exact unbiasedness: the code drops paths that carry less than 1/10000 in every channel without compensation, which is why the mean can be short by n L / 10000, and the theorem bounds this. Random numbers k/N satisfy the evenness condition with d = 1/N (C199_grid); pcg32 floats have N = 2^23. C199_scene instantiates all hypotheses for the scenes of C190 with media. A division of zero by a roulette probability of zero (opaque media, a draw of exactly 0; C196) counts as zero here. C199_lamps: the same for scenes with point, spot, directional and mesh lights sampled at every vertex, where L is the glow E plus max(1, F) times the most light B that the lamps send to any vertex; C199_lamps_case computes it for a floor under a lamp."
  },
  {
   "property": "C200",
   "status": "proved",
   "theorems": [
    "C200_lamps",
    "C200_noise",
    "C200_converges",
    "C200_unlikely",
    "C200_scene"
   ],
   "note": "The mean of the samples of a pixel is what the film stores with the box filter (C71). Samples of one pixel are taken to be independent; the generator itself is not modelled as a probability. A division of zero by a roulette probability of zero (opaque media, a draw of exactly 0; C196) counts as zero here. C200_lamps: scenes with lamps, as in C199_lamps."
  },
  {
   "property": "C201",
   "status": "proved",
   "theorems": [
    "C201_light",
    "C201_average",
    "C201_scene",
    "C201_lamps"
   ],
   "note": "Mean values as in C199; shown for the exponential media model (the volumetric path integrator), where the bounce limit is only a limit. C201_scene: diffuse surfaces, mirrors and glass of colour at most rho. C201_case: two mirrors, where exactly 2/2^n is missing. C201_lamps: scenes with lamps, as in C199_lamps."
  },
  {
   "property": "C202",
   "status": "partial",
   "theorems": [
    "C202_computed",
    "C202_lit",
    "C202_unlit_refuted",
    "C202_long_refuted"
   ],
   "note": "REFUTED twice: where the mesh is not seen the squared distance is read without having been set (C202_unlit_refuted), and the direction is not normalised (the constructor normalises its parameter, not the member), so that a direction of length 2 or more lights nothing because the mesh itself blocks the shadow ray (C202_long_refuted). C202_computed: what is computed for a direction of any length; C202_lit: the property for unit directions where the mesh is seen."
  },
  {
   "property": "C203",
   "status": "proved",
   "theorems": [
    "C203_average",
    "C203_noise",
    "C203_bounces",
    "C203_scenes",
    "C203_scenes_noise",
    "C203_scenes_bounces"
   ],
   "note": "C203_average, C203_noise and C203_bounces for the path integrator itself (path_Li, with clocks and log) on tapes of random numbers; C203_scenes, C203_scenes_noise and C203_scenes_bounces discharge the hypotheses for scenes of diffuse surfaces, mirrors and glass with point and mesh lights, glowing objects and a sky. Exact arithmetic."
  },
  {
   "property": "C204",
   "status": "proved",
   "theorems": [
    "C204_light",
    "C204_mean",
    "C204_path"
   ],
   "note": "C204_light for the light that arrives, C204_mean for the volumetric path integrator and C204_path for the path integrator (mean over all sequences of random numbers k/N). Exact arithmetic; scenes as in C199_lamps and C203_scenes."
  },
  {
   "property": "C205",
   "status": "proved",
   "theorems": [
    "C205_mean",
    "C205_depth",
    "C205_scenes",
    "C205_scenes_depth"
   ],
   "note": "C205_scenes: scenes of the renderer with lamps, glowing objects and a sky (lit_scene of C199). Own light of other surfaces counts twice as in C58; light of a mirror is lost when the path stops as in C85: both are part of the stated mean."
  },
  {
   "property": "C206",
   "status": "partial",
   "theorems": [
    "C206_share",
    "C206_ends",
    "C206_bounded_refuted",
    "C206_hall"
   ],
   "note": "REFUTED: between two parallel mirrors a sample whose random numbers are all at most 0.95 recurses for ever (shown for the stream of zeros). Proved instead: no run throws, the share of the random streams with which a sample sees more than n surfaces in a row is at most p^n with 0.95 <= p <= 0.95 + 1/N, exactly p^n between the mirrors (C206_hall)."
  },
  {
   "property": "C207",
   "status": "proved",
   "theorems": [
    "C207_mean",
    "C207_noise"
   ],
   "note": ""
  },
  {
   "property": "C208",
   "status": "proved",
   "theorems": [
    "C208_path",
    "C208_exact",
    "C208_pixel",
    "C208_whitted",
    "C208_volpath"
   ],
   "note": "Theorems for single samples of the path, Whitted and volumetric path integrators and for all samples of a pixel of the path integrator; Whitted and path without null surfaces.  With one seed the pictures may differ (C208_case: the same random number chooses another lamp)."
  },
  {
   "property": "C209",
   "status": "proved",
   "theorems": [
    "C209_contains",
    "C209_contains_on",
    "C209_center",
    "C209_area",
    "C209_sample3"
   ],
   "note": "Interior, closed box, point symmetry and face areas as independent descriptions; also: three numbers give the same sample as a vector, and local coordinates of points of the box are in the unit cube (C209_sample3)."
  },
  {
   "property": "C210",
   "status": "proved",
   "theorems": [
    "C210_average",
    "C210_shorter"
   ],
   "note": "Real arithmetic; operator*= is not modelled."
  },
  {
   "property": "C211",
   "status": "proved",
   "theorems": [
    "C211_light",
    "C211_exact",
    "C211_more",
    "C211_mean"
   ],
   "note": "Path integrator; spot and directional lights are excluded because sampling them reads an unset distance, directional meshes because they need the visibility test. The light with no lamp lit appears because glowing objects and the environment are counted in each of the renders."
  },
  {
   "property": "C212",
   "status": "proved",
   "theorems": [
    "C212_path",
    "C212_pixel",
    "C212_whitted",
    "C212_amb_occ"
   ],
   "note": "The acceleration structure's work per ray is not modelled (Embree)."
  },
  {
   "property": "C213",
   "status": "proved",
   "theorems": [
    "C213_light",
    "C213_mean"
   ],
   "note": "Path integrator; lamps are all but directional meshes (which need the visibility test). The mean allows for the bias of C203 (end of dim paths, resolution of the random numbers)."
  },
  {
   "property": "C214",
   "status": "proved",
   "theorems": [
    "C214_path",
    "C214_whitted",
    "C214_volpath",
    "C214_amb_occ"
   ],
   "note": "The watched run (a list of rays beside the world) is proved to be the plain run plus its list. The lists of lamps and of shaders are the same for both scenes: an added object that glows is not added to the list of lamps."
  },
  {
   "property": "C215",
   "status": "partial",
   "theorems": [
    "C215_point",
    "C215_leaves",
    "C215_meets_refuted"
   ],
   "note": "REFUTED for large coordinates: with vertices at most 2^14 from the origin a ray leaving a hit along the normal meets the triangle it leaves at 1/512 > Epsilon (C215_meets_refuted, explicit floats).  Proved: the error bound of every hit (C215_point) and that rays steeper than 9 B / (2^24 Epsilon) never meet the triangle again (C215_leaves)."
  },
  {
   "property": "C216",
   "status": "partial",
   "theorems": [
    "C216_geometric",
    "C216_shading",
    "C216_needle_refuted",
    "C216_opposite_refuted"
   ],
   "note": "REFUTED without the conditions: for a triangle with an area the geometric normal is not a number (C216_needle_refuted), and for opposite vertex normals of length one the shading normal is not a number halfway (C216_opposite_refuted).  Proved: C216_geometric and C216_shading under the stated conditions."
  },
  {
   "property": "C217",
   "status": "proved",
   "theorems": [
    "C217_tile"
   ],
   "note": "Stated for runs that give a result (they do whenever the clocks are idle and the null surfaces end, C83 and C175)."
  },
  {
   "property": "C218",
   "status": "partial",
   "theorems": [
    "C218_value",
    "C218_sample_refuted",
    "C218_peak_refuted"
   ],
   "note": "REFUTED as stated. Proved: the value is within two percent of the density for |g| <= 0.991 (C218_value). False near |g| = 1: for the float 0.9999 forward scattering is infinite (C218_peak_refuted). False for sampling: for g = -0.99 and the random number 8388552/2^23 the sampled cosine is above 1.001 and the returned value is NaN (C218_sample_refuted)."
  }
 ]
}