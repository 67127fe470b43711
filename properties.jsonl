{"id": "C01", "title": "Tiles partition the film exactly", "statement": "For every film width and height and every positive tile width, the tiles built for a multi-threaded render cover every pixel of the film, no pixel lies in two tiles, and no tile contains a pixel outside the film.", "quantifier": "all film sizes w,h >= 0, all tile widths > 0, all pixels", "why_tests_cant": "The claim ranges over every film size, including sizes that are not multiples of the tile width; tests can only try a few.", "anchors": ["src/misc/render_pool.cpp: RenderPool::initialize_pool"]}
{"id": "C02", "title": "Every tile is rendered exactly once under every schedule", "statement": "If the film has at least as many tiles as worker threads, then under every possible interleaving of worker completions with the dispatching loop, the multi-threaded render starts every tile exactly once, every started worker has been joined when the call returns, and the dispatcher never joins a running slot twice before reassigning it.", "quantifier": "all tile lists at least as long as the thread count, all schedules (completion histories)", "why_tests_cant": "The number of schedules is unbounded; tests see only the ones the OS happens to produce.", "anchors": ["src/misc/render_pool.cpp: RenderPool::evaluate_pool"]}
{"id": "C03", "title": "Multi-threaded rendering is defined for every film size", "statement": "A multi-threaded render of any non-empty film has defined behaviour (never reads past the list of remaining tiles).", "quantifier": "all film sizes", "why_tests_cant": "Needs a characterisation of exactly which sizes are safe, not some sizes.", "anchors": ["src/misc/render_pool.cpp: RenderPool::evaluate_pool", "src/integrators/integrator.cpp: Integrator::render_fast"]}
{"id": "C04", "title": "The parallel film does not depend on the schedule", "statement": "For any assignment of splats to worker threads and any interleaving of the per-pixel locked updates, the resulting film (in exact arithmetic) is the same, and equals the film obtained by processing the splats sequentially.", "quantifier": "all finite splat sets, all interleavings of any number of workers", "why_tests_cant": "Interleavings are combinatorially many and not controllable from a test.", "anchors": ["src/misc/render_pool.cpp: RenderTile::evaluate, RenderPool::evaluate_pool"]}
{"id": "C05", "title": "Splatting never leaves the film", "statement": "For every sample position inside a film of positive size and every filter radius >= 0, every pixel touched by the reconstruction filter is inside the film, and every film pixel whose unit cell meets the filter support around the sample is touched, except that the last row and column are reached through the clamp.", "quantifier": "all film sizes, all sample positions in the film, all filter sizes", "why_tests_cant": "Out-of-bounds writes show only at particular combinations of position and size.", "anchors": ["src/integrators/integrator.cpp: Integrator::render", "src/misc/render_pool.cpp: RenderTile::evaluate", "include/feign/math/bbox.h: BBox2::clip"]}
{"id": "C06", "title": "A rendered pixel is a weighted average of radiance samples", "statement": "After a single-threaded render, each pixel channel equals (sum of weight*radiance)/(sum of weights) over exactly the samples whose splat reaches the pixel; with non-negative weights it lies between the smallest and largest contributing radiance; pixels with zero total weight are black; the previous contents of the image never matter.", "quantifier": "all films, sample sequences, radiances, non-negative filters, previous image contents", "why_tests_cant": "Ranges over all sample sequences and radiance values.", "anchors": ["src/integrators/integrator.cpp: Integrator::render"]}
{"id": "C07", "title": "Constant radiance gives a constant image", "statement": "If every camera sample returns the same radiance then every pixel that receives non-zero filter weight shows exactly that radiance.", "quantifier": "all films, filters, sampler outputs", "why_tests_cant": "Must hold for every sampler output and filter.", "anchors": ["src/integrators/integrator.cpp: Integrator::render", "src/misc/render_pool.cpp: RenderPool::evaluate_pool"]}
{"id": "C08", "title": "A multi-threaded render ignores the previous image contents", "statement": "The result of a multi-threaded render does not depend on what the target image contained before the call.", "quantifier": "all previous image contents", "why_tests_cant": "Tests usually start from a black image and cannot see the dependence.", "anchors": ["src/integrators/integrator.cpp: Integrator::render_fast", "src/misc/render_pool.cpp"]}
{"id": "C09", "title": "Every pixel gets exactly the requested number of samples", "statement": "A single-threaded render evaluates the integrator exactly spp times for each pixel of the film, each time with a sample position inside that pixel; the multi-threaded render does the same over all its tiles.", "quantifier": "all film sizes, sample counts, sampler outputs in [0,1)", "why_tests_cant": "Quantifies over all film sizes and sample counts.", "anchors": ["src/integrators/integrator.cpp: Integrator::render", "src/misc/render_pool.cpp: RenderTile::evaluate"]}
{"id": "C10", "title": "Scene nodes are defined at most once", "statement": "Across any history of scene-description calls, once a material, integrator, sampler, camera, mesh, texture, medium, emitter, shader or filter name has been given a definition, a second definition of the same kind and name raises the error that it is already defined, naming the kind, and leaves the first definition in place.", "quantifier": "all histories of scene-description calls", "why_tests_cant": "Histories are unbounded.", "anchors": ["src/api/api.cpp: FeignRenderer::fr_*"]}
{"id": "C11", "title": "Names may be used before they are defined", "statement": "For every history, a reference made by name before the definition and a reference made after it denote the same node: looking up a name creates at most one node per kind and name, and later lookups always return that node.", "quantifier": "all histories, all names", "why_tests_cant": "Unbounded histories and name sets.", "anchors": ["src/api/api.cpp: FeignRenderer::find_*"]}
{"id": "C12", "title": "Reserved names resolve to the documented built-ins", "statement": "The reserved names (empty string, \"null\", \"default\") always resolve to the built-in node or to no node at all and never create a user node, whatever happened before.", "quantifier": "all histories", "why_tests_cant": "Unbounded histories.", "anchors": ["src/api/api.cpp: FeignRenderer::find_*"]}
{"id": "C13", "title": "A failed scene-description call can be recovered from", "statement": "After a scene-description call raises an error (for example a duplicate definition), later valid calls still work.", "quantifier": "all histories containing a failing call", "why_tests_cant": "Requires reasoning over all continuations of a failing call.", "anchors": ["src/api/api.cpp: START_API/STOP_API", "src/stats/clocker.cpp: Clocker::start_clock"]}
{"id": "C14", "title": "Several objects may share a name", "statement": "Adding an object whose name is already taken succeeds by deriving a fresh name, for every history.", "quantifier": "all histories of object additions", "why_tests_cant": "Unbounded histories; depends on the clocking configuration.", "anchors": ["src/api/api.cpp: FeignRenderer::fr_object"]}
{"id": "C15", "title": "Each shape in the scene is mapped to its own object", "statement": "When the scene is flushed and no mesh is used by two objects, instance ids are exactly the positions of the shapes, every shape is found under its id, and the object found under a shape's id is the one that named that shape; its final transform is the object's transform composed with the mesh's own.", "quantifier": "all scene descriptions in which meshes are not shared", "why_tests_cant": "Ranges over all scenes.", "anchors": ["src/api/api.cpp: FeignRenderer::flush_renders"]}
{"id": "C16", "title": "Objects may share one mesh", "statement": "Two objects that reference the same mesh each keep their own transform, material and emitter.", "quantifier": "all scenes with shared meshes", "why_tests_cant": "Ranges over all scenes with sharing.", "anchors": ["src/api/api.cpp: FeignRenderer::flush_renders"]}
{"id": "C17", "title": "Transform calls compose in call order", "statement": "After any sequence of translate/scale/rotate/matrix calls since the last clear, the current transform maps a point to the result of applying the calls one after another in call order, and its stored inverse undoes it exactly when every call is invertible.", "quantifier": "all sequences of transform calls", "why_tests_cant": "Unbounded sequences; real-valued parameters.", "anchors": ["src/api/api.cpp: FeignRenderer::fr_*transform, fr_translate, fr_scale, fr_rotate", "src/math/transform.cpp"]}
{"id": "C18", "title": "Every emitter reaches the scene exactly once and in the right list", "statement": "After flushing, each defined emitter is present exactly once: environment-only emitters only in the environment list, the others only in the directly sampled list.", "quantifier": "all scene descriptions", "why_tests_cant": "Ranges over all scenes.", "anchors": ["src/scene.cpp: Scene::addEmitter", "src/api/api.cpp: flush_renders"]}
{"id": "C19", "title": "Clock calls must alternate, and the total is the sum of the intervals", "statement": "For every sequence of start/stop calls on one clock, an error is raised at exactly the first call that breaks the start/stop alternation, and otherwise the reported total equals the sum of the lengths of the completed intervals; other clocks are unaffected.", "quantifier": "all call sequences and all times", "why_tests_cant": "Unbounded histories.", "anchors": ["src/stats/clocker.cpp: Clocker::start_clock, end_clock, return_results"]}
{"id": "C20", "title": "Timing records survive a write/read round trip", "statement": "Writing a timing record to its textual form and reading it back gives the same record.", "quantifier": "all records", "why_tests_cant": "All records, including dates and every counter.", "anchors": ["src/stats/clocker.cpp: ClockerResults::to_string, parse_from_string"]}
{"id": "C21", "title": "Integrators leave every clock stopped", "statement": "Whatever the scene answers (hits, misses, roulette, zero pdfs), evaluating the path, Whitted or ambient-occlusion integrator starts with all clocks stopped and ends with all its clocks stopped, without ever starting a running clock or stopping a stopped one.", "quantifier": "all control paths of the integrators, unbounded recursion depth", "why_tests_cant": "Control paths are unbounded; a missing stop on a rare branch escapes tests.", "anchors": ["src/integrators/path_unidir.cpp", "src/integrators/whitted.cpp", "src/integrators/amb_occ.cpp", "include/feign/stats/clocker.h"]}
{"id": "C22", "title": "Matrix inversion is exact", "statement": "For every 4x4 matrix with non-zero determinant, the computed inverse is a two-sided inverse in exact arithmetic.", "quantifier": "all 4x4 real matrices with non-zero determinant", "why_tests_cant": "Continuous input space.", "anchors": ["include/feign/math/vector.h: Matrix4::operator~"]}
{"id": "C23", "title": "Transforms round-trip and compose", "statement": "For every transform built from invertible pieces, applying it and then its inverse returns every point and vector unchanged; applying a product equals applying the factors right to left; the stored inverse of a product is the inverse of the product.", "quantifier": "all affine transforms, points, vectors", "why_tests_cant": "Continuous input space.", "anchors": ["src/math/transform.cpp"]}
{"id": "C24", "title": "Transformed normals stay perpendicular to the surface", "statement": "For every invertible transform, if a normal is perpendicular to a tangent vector then the transformed normal is perpendicular to the transformed tangent.", "quantifier": "all invertible affine transforms, all normals and tangents", "why_tests_cant": "Continuous input space.", "anchors": ["src/math/transform.cpp: Transform::operator*(Normal3f)"]}
{"id": "C25", "title": "Rotation matrices are rotations", "statement": "The matrix built for a unit axis and any angle preserves all dot products, fixes the axis, has determinant 1 and composing angles adds them.", "quantifier": "all unit axes and angles", "why_tests_cant": "Continuous input space.", "anchors": ["include/feign/math/vector.h: Matrix4::rotate"]}
{"id": "C26", "title": "Local frames are orthonormal and round-trip", "statement": "For every unit normal the generated frame is orthonormal, right- or left-handed consistently, and converting a vector to local coordinates and back (and conversely) is the identity and preserves lengths and dot products.", "quantifier": "all unit normals, all vectors", "why_tests_cant": "Continuous input space with a degenerate axis.", "anchors": ["src/math/coord_frame.cpp"]}
{"id": "C27", "title": "Component-wise vector helpers mean what they are called", "statement": "max() returns the largest component and inequality is the negation of equality.", "quantifier": "all vectors", "why_tests_cant": "All inputs.", "anchors": ["include/feign/math/vector.h: Vec3::max, Vec3::operator!="]}
{"id": "C28", "title": "Bounding boxes: merge and expand give the smallest enclosing box", "statement": "Expanding a box by any list of points (or merging boxes) gives the smallest box containing the original and all of them, independent of order.", "quantifier": "all boxes and finite point lists", "why_tests_cant": "Unbounded lists and continuous inputs.", "anchors": ["include/feign/math/bbox.h: BBox3::expand"]}
{"id": "C29", "title": "The slab test is exact", "statement": "For every box and every ray whose direction has no zero component, the box intersection test answers yes exactly when some point of the ray's infinite line inside the tested range is in the closed box, and the reported near/far distances bound exactly the parameters of the points in the box.", "quantifier": "all boxes, origins and directions with non-zero components", "why_tests_cant": "Continuous input space.", "anchors": ["include/feign/math/bbox.h: BBox3::intersect"]}
{"id": "C30", "title": "Splitting a box into eight covers it without overlap", "statement": "The eight children of a box cover the box, lie inside it, and have pairwise disjoint interiors; their volumes add up to the box's volume.", "quantifier": "all boxes", "why_tests_cant": "Continuous input space.", "anchors": ["include/feign/math/bbox.h: BBox3::split_into_eight"]}
{"id": "C31", "title": "Discrete distribution: the cdf is monotone and ends at one", "statement": "For every non-empty list of non-negative weights with positive sum, after conversion the stored cumulative values are non-decreasing, start at 0 and end at 1, and each entry's probability is its weight divided by the total.", "quantifier": "all weight lists", "why_tests_cant": "Unbounded lists of real weights.", "anchors": ["src/math/discrete_pdf.cpp: convert_pdf_to_cdf, get_pmf"]}
{"id": "C32", "title": "Discrete sampling returns the entry whose interval contains the value", "statement": "For every distribution and every value in (0,1], sampling returns the index of the entry whose cumulative interval contains the value.", "quantifier": "all distributions and values", "why_tests_cant": "Unbounded distributions.", "anchors": ["src/math/discrete_pdf.cpp: sample"]}
{"id": "C33", "title": "Warped samples land in their domain", "statement": "Every unit-square sample is mapped into the closed unit disk, onto the unit sphere, onto the upper unit hemisphere (uniform, cosine and cosine-power), into the requested spherical cap, or to valid barycentric coordinates.", "quantifier": "all samples in the unit square, all exponents > -1, all caps", "why_tests_cant": "Continuous input space.", "anchors": ["src/math/warp.cpp"]}
{"id": "C34", "title": "Warp densities are normalised and match the sampling maps", "statement": "Each density integrates to one over its domain, and the sampled polar coordinate has exactly the cumulative distribution induced by the density (the sampling map inverts that cumulative distribution).", "quantifier": "all samples, exponents and caps", "why_tests_cant": "Integrals over continuous domains.", "anchors": ["src/math/warp.cpp"]}
{"id": "C35", "title": "Fresnel reflectance is a valid probability", "statement": "For every incident cosine in [-1,1] other than 0 and positive indices of refraction, the Fresnel term lies in [0,1], is 1 under total internal reflection, and is 0 for equal indices.", "quantifier": "all cosines and positive indices", "why_tests_cant": "Continuous input space.", "anchors": ["include/feign/common.h: fresnel"]}
{"id": "C36", "title": "Fresnel reflectance follows the Fresnel equations", "statement": "The Fresnel term equals the average of the squared s- and p-polarised amplitude ratios with the transmitted cosine given by Snell's law.", "quantifier": "all cosines and indices", "why_tests_cant": "Continuous input space.", "anchors": ["include/feign/common.h: fresnel"]}
{"id": "C37", "title": "Diffuse materials conserve energy and are reciprocal", "statement": "For every albedo in [0,1] and every pair of directions, the diffuse material's value is symmetric in the two directions, zero across the surface, its sampling weight never exceeds the albedo, and the hemispherical integral of value times cosine equals the albedo.", "quantifier": "all albedos and direction pairs, all samples", "why_tests_cant": "Continuous input and an integral.", "anchors": ["src/bsdfs/diffuse.cpp"]}
{"id": "C38", "title": "Mirror and dielectric sampling obey reflection and refraction laws", "statement": "For every unit incident direction, a sampled mirror direction is the reflection about the normal (unit, same angle); a sampled dielectric direction is either that reflection or a unit vector on the other side satisfying Snell's law.", "quantifier": "all incident unit directions, indices, samples", "why_tests_cant": "Continuous input space.", "anchors": ["src/bsdfs/mirror.cpp", "src/bsdfs/dielectric.cpp"]}
{"id": "C39", "title": "Glossy materials report the density of the direction they sample", "statement": "For the Phong and Blinn materials, the density reported when sampling a direction is the density with which that direction is sampled: a mixture, with the specular coefficient as probability, of a lobe around the mirror direction (half vector) and the cosine hemisphere.", "quantifier": "all directions, exponents and samples", "why_tests_cant": "Continuous input space.", "anchors": ["src/bsdfs/phong.cpp", "src/bsdfs/blinn.cpp"]}
{"id": "C40", "title": "Point light falls off with the inverse square of the distance", "statement": "A point light of power P delivers P/(4 pi d^2) to a shading point at distance d, in each color channel, from the unit direction towards the light, for every pair of distinct points.", "quantifier": "all light and shading positions, all intensities", "why_tests_cant": "Continuous input space.", "anchors": ["src/emitters/point.cpp"]}
{"id": "C41", "title": "Directional and spot lights use unit directions", "statement": "For every non-zero direction given by the user, the light stores and uses the normalised direction.", "quantifier": "all directions", "why_tests_cant": "All inputs.", "anchors": ["src/emitters/directional.cpp", "src/emitters/spot.cpp"]}
{"id": "C42", "title": "Uniform light selection is in range and has the right probability", "statement": "For every number of lights and every single-precision uniform value in [0,1), the selected light index is within the list; up to 2^24 lights the reported probability is one over the number of lights up to half a unit in the last place. (Beyond that some lights can never be selected.)", "quantifier": "all binary32 values in [0,1), all light counts", "why_tests_cant": "Rounding corner cases among 2^30 float values times 2^24 counts.", "anchors": ["src/accel/naive_light_accel.cpp", "src/scene.cpp: choose_emitter"]}
{"id": "C43", "title": "Homogeneous transmittance is exponential", "statement": "The transmittance of a homogeneous medium along a segment is exp(-density*length): it is in (0,1], equals 1 on an empty segment, is decreasing in length, and multiplies over adjacent segments.", "quantifier": "all densities >= 0, all segments", "why_tests_cant": "Continuous input space.", "anchors": ["src/media/trans_ests/homo.cpp", "include/feign/media/density_func.h"]}
{"id": "C44", "title": "Ray-marched transmittance converges to the true value as steps shrink", "statement": "For a constant-density medium, the ray-marched transmittance of a segment does not depend on the number of steps.", "quantifier": "all step counts and segments", "why_tests_cant": "Unbounded step counts.", "anchors": ["src/media/trans_ests/ray_march.cpp"]}
{"id": "C45", "title": "Phase functions are normalised", "statement": "The isotropic, Henyey-Greenstein and Rayleigh phase functions are non-negative and integrate to one over the sphere.", "quantifier": "all asymmetry parameters in (-1,1)", "why_tests_cant": "Integrals over a continuous domain.", "anchors": ["include/feign/media/phase.h"]}
{"id": "C46", "title": "Phase function sampling matches evaluation", "statement": "Sampling the Henyey-Greenstein and Rayleigh phase functions returns a unit direction whose cosine has exactly the cumulative distribution of the phase function, and the reported density equals the evaluated one.", "quantifier": "all parameters, all samples in the unit square, all incident directions", "why_tests_cant": "Continuous input space.", "anchors": ["include/feign/media/phase.h"]}
{"id": "C47", "title": "Ratio-tracked transmittance stays in [0,1]", "statement": "Whatever random numbers are drawn and whatever densities are found, as long as they do not exceed the majorant the ratio-tracking estimate stays in [0,1].", "quantifier": "all random streams, all density fields bounded by the majorant", "why_tests_cant": "Unbounded number of tracking steps.", "anchors": ["src/media/trans_ests/ratio.cpp"]}
{"id": "C48", "title": "Signed distance functions are true distances", "statement": "Every distance shape (sphere, plane, box, cylinder, cone) evaluates to the signed distance to its solid: outside, the distance to the nearest point of the solid; inside, minus the distance to the outside. It is positive exactly outside, the box function is zero exactly on the surface, and none over-estimates the distance to a point of the solid.", "quantifier": "all points, all five shapes with sensible parameters", "why_tests_cant": "Continuous input space.", "anchors": ["src/shapes/sdf_sphere.cpp", "src/shapes/sdf_box.cpp", "src/shapes/sdf_cylinder.cpp", "src/shapes/sdf_cone.cpp", "src/shapes/sdf_plane.cpp"]}
{"id": "C49", "title": "Sphere tracing never steps through a surface", "statement": "If every shape's distance function never over-estimates the distance, then sphere tracing of the scene from outside never advances past the first surface point of the ray, and a reported hit is within the hit tolerance of a surface.", "quantifier": "all scenes of 1-Lipschitz distance functions, all rays, any number of steps", "why_tests_cant": "Unbounded number of steps and continuous inputs.", "anchors": ["src/accel/ray_sdf.cpp: intersect, evaluate"]}
{"id": "C50", "title": "Triangle intersection is exact", "statement": "For every ray and non-degenerate triangle, the intersection test reports a hit exactly when the ray meets the triangle within its range.", "quantifier": "all rays and triangles", "why_tests_cant": "Continuous input space.", "anchors": ["src/shapes/objmesh.cpp: intersect"]}
{"id": "C51", "title": "The nearest hit wins", "statement": "For every mesh, the mesh intersection reports a hit exactly when some face is hit, and the reported distance is the smallest one, independent of face order.", "quantifier": "all finite face lists", "why_tests_cant": "Unbounded lists.", "anchors": ["src/shapes/objmesh.cpp: ObjMesh::intersect"]}
{"id": "C52", "title": "Generated grids are well formed", "statement": "For every resolution of at least 2x2 the generated grid mesh has exactly res0*res1 vertices and 2*(res0-1)*(res1-1) triangles, every index is in range, and the vertices span exactly the requested square.", "quantifier": "all resolutions >= 2", "why_tests_cant": "Unbounded resolutions.", "anchors": ["src/shapes/grid_obj.cpp"]}
{"id": "C53", "title": "k-nearest photon lookup", "statement": "For every list of at least k photons, the k-nearest query visits photons so that the final set consists of k photons with no excluded photon strictly closer than an included one, sorted by distance.", "quantifier": "all photon lists and query points", "why_tests_cant": "Unbounded lists.", "anchors": ["src/accel/photon_array.cpp"]}
{"id": "C54", "title": "Photon scattering never overruns its buffer", "statement": "For every scene and every random stream, photon scattering writes only inside the allocated photon array.", "quantifier": "all scenes and random streams", "why_tests_cant": "Depends on bounce histories.", "anchors": ["src/integrators/photon.cpp: scatter_photons"]}
{"id": "C55", "title": "Path tracing terminates within the bounce limit", "statement": "For every scene and random stream the path integrator performs at most max_bounces surface interactions and returns.", "quantifier": "all scenes, random streams and bounce limits", "why_tests_cant": "All histories of intersections.", "anchors": ["src/integrators/path_unidir.cpp"]}
{"id": "C56", "title": "The path integrator's estimate is the sum of attenuated contributions", "statement": "For every interaction history the returned radiance equals the sum over visited vertices of the product of all previous attenuations times the emission plus direct light at that vertex, plus the attenuated environment term if the path escapes; with non-negative inputs it is non-negative and monotone in every contribution.", "quantifier": "all interaction histories", "why_tests_cant": "Unbounded histories.", "anchors": ["src/integrators/path_unidir.cpp"]}
{"id": "C57", "title": "Ambient occlusion is zero or one", "statement": "The ambient occlusion integrator returns black on a miss, white exactly when the primary ray hits and the sampled hemisphere ray is unoccluded, black otherwise.", "quantifier": "all scenes, rays, samples", "why_tests_cant": "All scenes.", "anchors": ["src/integrators/amb_occ.cpp"]}
{"id": "C58", "title": "Whitted counts emission once", "statement": "On a non-specular surface the Whitted integrator returns emission plus direct light, each counted once.", "quantifier": "all shading results", "why_tests_cant": "All shading results.", "anchors": ["src/integrators/whitted.cpp"]}
{"id": "C59", "title": "Null boundaries are transparent to primary rays", "statement": "For every arrangement of surfaces along a ray, the non-null intersection query returns the nearest surface that is not a null boundary (beyond the skipping tolerance), and none if there is none.", "quantifier": "all finite arrangements of surfaces along a ray", "why_tests_cant": "Unbounded number of boundaries.", "anchors": ["src/scene.cpp: Scene::intersect_non_null"]}
{"id": "C60", "title": "Shadow rays: only valid ones contribute and the closure is restored", "statement": "Accumulating the recorded shadow rays adds exactly the contributions of the valid ones, empties the list, and leaves the outgoing direction and albedo of the closure unchanged.", "quantifier": "all shadow-ray lists", "why_tests_cant": "Unbounded lists.", "anchors": ["src/closure/material.cpp"]}
{"id": "C61", "title": "Every light sampled by the multi-light strategy is accounted for", "statement": "When several shadow rays are requested, each of the recorded shadow rays carries its own validity and direction.", "quantifier": "all numbers of shadow rays", "why_tests_cant": "Unbounded numbers.", "anchors": ["src/scene.cpp: eval_multi_emitters"]}
{"id": "C62", "title": "Texture lookups are always in bounds", "statement": "For every uv coordinate (including outside the unit square) and every non-empty image, the texture lookup reads a pixel inside the image.", "quantifier": "all uv coordinates and image sizes", "why_tests_cant": "Continuous input space.", "anchors": ["src/textures/image_texture.cpp"]}
{"id": "C63", "title": "The test harness passes exactly when every test passes", "statement": "Running all tests reports success exactly when no individual test fails; running a single test reports success exactly when it does not fail.", "quantifier": "all outcomes of all tests", "why_tests_cant": "All combinations of outcomes.", "anchors": ["src/test/tester.cpp", "src/main.cpp"]}
{"id": "C64", "title": "Filters are non-negative, symmetric and vanish outside their support", "statement": "The box and Gaussian filters are even in each coordinate, non-negative, and zero outside their size.", "quantifier": "all offsets and sizes", "why_tests_cant": "Continuous input space.", "anchors": ["src/filters/box_filter.cpp", "src/filters/gauss_filter.cpp"]}
{"id": "C65", "title": "The camera's central ray and unit directions", "statement": "Every camera ray has a unit direction and starts at the camera position; pixels map to distinct directions.", "quantifier": "all film positions and camera transforms", "why_tests_cant": "Continuous input space.", "anchors": ["src/cameras/perspective.cpp"]}
{"id": "C66", "title": "Look-at camera transforms are rigid", "statement": "For every camera position, target direction and up vector that are not parallel, the constructed camera matrix is orthonormal and maps the forward axis to the viewing direction.", "quantifier": "all non-degenerate camera settings", "why_tests_cant": "Continuous input space.", "anchors": ["src/api/api.cpp: fr_camera"]}
{"id": "C67", "title": "Complex arithmetic is field arithmetic", "statement": "Complex addition, subtraction and multiplication and their in-place forms satisfy the field laws.", "quantifier": "all complex numbers", "why_tests_cant": "Continuous input space.", "anchors": ["include/feign/math/complex.h"]}
{"id": "C68", "title": "Fractal density is bounded and monotone", "statement": "For every point and iteration bound the fractal iteration count is between 0 and the bound, increasing the bound never decreases the count, and the density lies in [0,1].", "quantifier": "all points and bounds", "why_tests_cant": "Unbounded iteration counts.", "anchors": ["include/feign/media/density_func.h: MandlebrotDensity"]}
{"id": "C69", "title": "Tile start order and sampler seeds are schedule-independent", "statement": "In a multi-threaded render the tiles are handed to worker threads in one fixed order, whatever the workers' timing, so the private sampler given to each tile does not depend on the schedule.", "quantifier": "all tile lists, thread counts and completion histories", "why_tests_cant": "Tests observe one schedule per run.", "anchors": ["src/misc/render_pool.cpp: RenderPool::evaluate_pool"]}
{"id": "C71", "title": "With the default box filter every camera sample counts for exactly its own pixel", "statement": "With the default box filter, a camera sample generated for a pixel (sampler output in [0,1)^2) contributes weight one to that pixel and zero to all others.", "quantifier": "all pixels and sampler outputs", "why_tests_cant": "The failing sampler outputs form a null set that random tests miss.", "anchors": ["src/filters/box_filter.cpp: BoxFilter::evaluate", "src/integrators/integrator.cpp: Integrator::render"]}
{"id": "C72", "title": "A default-constructed Gaussian filter gives a usable image", "statement": "A render with a default-constructed Gaussian filter weighs samples inside its pixel positively, so lit scenes are not black.", "quantifier": "all scenes, standard deviations, sampler outputs", "why_tests_cant": "Requires reasoning about the weight for every offset.", "anchors": ["src/filters/gauss_filter.cpp: GaussFilter", "include/feign/core/recon_filter.h"]}
{"id": "C73", "title": "The index of the largest component", "statement": "Asking a 3-vector for the index of its largest component returns an index whose component is at least as large as the others, for every vector.", "quantifier": "all vectors", "why_tests_cant": "Ties form a null set that random tests miss.", "anchors": ["include/feign/math/vector.h: Vec3::maxIndex"]}
{"id": "C74", "title": "Two boxes overlap exactly when they share a point", "statement": "The box overlap query answers yes exactly when the two closed boxes have a point in common.", "quantifier": "all pairs of boxes", "why_tests_cant": "Continuous input space; tests with nested boxes cannot tell the difference.", "anchors": ["include/feign/math/bbox.h: BBox3::overlaps"]}
{"id": "C75", "title": "Sampling a box yields points of the box", "statement": "Every sample of the unit cube is mapped to a point inside the box, on each axis separately as well.", "quantifier": "all boxes and samples", "why_tests_cant": "Holds for boxes at the origin, which are the ones tests use.", "anchors": ["include/feign/math/bbox.h: BBox3::sample"]}
{"id": "C76", "title": "Warp densities vanish outside their domains", "statement": "Each warp density is zero at every point outside the domain of its sampling map (disk, hemisphere, cap, triangle).", "quantifier": "all points, exponents and caps", "why_tests_cant": "Continuous input space.", "anchors": ["src/math/warp.cpp"]}
{"id": "C77", "title": "Mesh lights are sampled over their whole surface in proportion to area", "statement": "For every mesh light and every unit-square sample, the chosen triangle is the one whose share of the total area contains the sample value, and the sampled point lies on that triangle.", "quantifier": "all area lists and samples", "why_tests_cant": "A light with one triangle behaves correctly; the failure is statistical.", "anchors": ["src/emitters/mesh.cpp: MeshEmitter::sample_nee", "src/math/discrete_pdf.cpp: DiscretePDF1D::sample"]}
{"id": "C78", "title": "A first definition of a supported type succeeds and is what was asked for", "statement": "In any state reached by calls that all succeeded, defining a name of any kind for the first time with a supported type succeeds, and the stored definition has exactly that type, those parameters and the nodes its names stand for.", "quantifier": "all histories, all calls, all names that are not reserved", "why_tests_cant": "Unbounded histories times all kinds of call.", "anchors": ["src/api/api.cpp: FeignRenderer::fr_*"]}
{"id": "C79", "title": "Defining a name that means 'none' is rejected with an error", "statement": "A definition whose name is one that stands for no node (\"null\", the empty string, \"default\" for media and textures) raises an error instead of crashing.", "quantifier": "all calls and all such names", "why_tests_cant": "Needs every call crossed with every reserved name.", "anchors": ["src/api/api.cpp: find_emitter, find_media, find_texture, find_density_func, find_medium_*"]}
{"id": "C80", "title": "A scene description can be rendered exactly when nothing in it is missing", "statement": "Flushing succeeds, for every iteration order of the tables, if and only if integrator, sampler, camera, every medium, every object's mesh and every emitter used by an object have been defined; an object without a defined mesh is reported as such.", "quantifier": "all reachable descriptions, all iteration orders", "why_tests_cant": "Ranges over all descriptions and all hash-table orders.", "anchors": ["src/api/api.cpp: FeignRenderer::flush_renders", "src/scene.cpp: Scene::preProcess, Scene::renderScene"]}
{"id": "C81", "title": "An integrator's named filter is available when rendering starts", "statement": "For every description that flushes without error, the reconstruction filter named by the integrator exists.", "quantifier": "all descriptions", "why_tests_cant": "Only the default filter appears in tests.", "anchors": ["src/api/api.cpp: find_filter, fr_integrator", "src/misc/render_pool.cpp: filter->filter->getSize"]}
{"id": "C82", "title": "The debug integrators show the primary hit", "statement": "The normal, nice-normal, cosine and barycentric integrators raise no clock error, leave every clock as found, ask for exactly one non-null intersection, and return the absolute normal, an invertible encoding of the normal into the unit cube, the cosine against the ray direction, or a 0/1 wireframe mask (1 exactly if a barycentric coordinate is below 0.01); misses give the fixed background of each view.", "quantifier": "for all scenes, rays, clock states with the integrator clocks idle", "why_tests_cant": "the normal view contains a return between start and stop of a clock; only a proof over all normals shows it cannot be taken.", "anchors": ["src/debug_integrators/normal.cpp:30-59", "src/debug_integrators/nice_normal.cpp:30-54", "src/debug_integrators/cosine_term.cpp:33-59", "src/debug_integrators/barycentric.cpp:38-69"]}
{"id": "C83", "title": "A complete render never trips the clocks", "statement": "Rendering any film with any of the path, Whitted, ambient-occlusion or debug integrators, with whatever scene, shaders and random numbers, never throws from the clock bookkeeping, leaves every clock as found and yields one value per camera sample.", "quantifier": "for all films, cameras, scenes, shaders, random number streams", "why_tests_cant": "a start without stop on one rare branch throws only on the next call that takes the same clock.", "anchors": ["src/integrators/integrator.cpp:39-130", "src/misc/clocker.cpp:22-60"]}
{"id": "C84", "title": "Path tracing's Russian roulette is unbiased", "statement": "Averaged over a uniform random number, the throughput with which the path integrator continues after its roulette equals albedo*cos/pdf times the throughput before, for every throughput with a positive component.", "quantifier": "for all throughputs, surfaces and sampled closures", "why_tests_cant": "an expectation over a continuous random number.", "anchors": ["src/integrators/path_unidir.cpp:86-142"]}
{"id": "C85", "title": "Whitted's Russian roulette is unbiased", "statement": "Averaged over the roulette's random number, the Whitted integrator's value at a specular vertex equals emission + direct light + albedo * (value of the continuation).", "quantifier": "for all specular vertices, closures and continuations", "why_tests_cant": "an expectation over a continuous random number; the bias is 5 percent of the vertex's own light.", "anchors": ["src/integrators/whitted.cpp:84-127"]}
{"id": "C86", "title": "Sampling and evaluating a material agree", "statement": "For every material and every sampled direction of non-zero density, the value written by sample() is the value evaluate() computes for that pair of directions.", "quantifier": "all materials, directions and random numbers", "why_tests_cant": "Continuous input space; the disagreement needs directions more than 90 degrees from the mirror direction.", "anchors": ["src/bsdfs/*.cpp: sample, evaluate"]}
{"id": "C87", "title": "Phong material reflects at most what it receives", "statement": "The Phong constructor reduces the specular coefficient so that diffuse and specular reflectance together never exceed one; the reflectance at normal incidence is kd + (scaled) ks.", "quantifier": "all coefficients and exponents", "why_tests_cant": "A statement about an integral over all directions.", "anchors": ["src/bsdfs/phong.cpp:14-21, 79-84"]}
{"id": "C88", "title": "One-way dielectric lets light in and never out", "statement": "Light arriving from inside is always mirrored back inside, whatever the random number; light from outside is mirrored or refracted by Snell's law with the given indices.", "quantifier": "all directions, indices, random numbers", "why_tests_cant": "Continuous input space.", "anchors": ["src/bsdfs/one_way_dielectric.cpp:21-76"]}
{"id": "C89", "title": "Null material is invisible", "statement": "A surface with the null material passes light straight on with weight one, whatever happened before.", "quantifier": "all directions and closure states", "why_tests_cant": "Depends on state left in the closure by earlier bounces.", "anchors": ["src/bsdfs/null.cpp:18-29", "src/integrators/path_unidir.cpp:112-135"]}
{"id": "C90", "title": "Opaque materials scatter to the side the light came from", "statement": "Diffuse, mirror, Phong and Blinn materials never choose, with non-zero density, a direction below the surface, nor scatter light arriving from below.", "quantifier": "all directions, parameters and random numbers", "why_tests_cant": "Continuous input space; needs grazing light and a wide lobe.", "anchors": ["src/bsdfs/diffuse.cpp", "src/bsdfs/mirror.cpp", "src/bsdfs/phong.cpp", "src/bsdfs/blinn.cpp"]}
{"id": "C91", "title": "Path segments are connected", "statement": "In every run of the path integrator each new ray starts at the previous surface point (offset by the ray epsilon) and goes in the direction the material sampled for the direction the previous ray arrived from; the closure handed to the shader carries that arriving direction and no light from earlier vertices.", "quantifier": "all scenes, shaders, random numbers, path lengths", "why_tests_cant": "Unbounded paths over arbitrary scenes and shader answers.", "anchors": ["src/integrators/path_unidir.cpp: Path_Unidirectional_Integrator::Li"]}
{"id": "C92", "title": "Shadow rays are attenuated by exactly the media they cross", "statement": "The transmittance of a shadow ray that meets no solid surface is the product of the transmittances of the media along it, each over the stretch it occupies; a shadow ray that meets a solid surface is blocked.", "quantifier": "all arrangements of boundaries and solids along a ray, all media", "why_tests_cant": "Unbounded number of boundaries; wrong attenuation only shows as a darker image.", "anchors": ["src/scene.cpp: intersect_transmittance"]}
{"id": "C93", "title": "Directional and spot lights illuminate", "statement": "A directional or spot light in the scene contributes its radiance to every surface it reaches.", "quantifier": "all surfaces, all such lights", "why_tests_cant": "The outcome depends on an uninitialised value, which a test run may happen to survive.", "anchors": ["src/emitters/directional.cpp", "src/emitters/spot.cpp", "src/scene.cpp: eval_all_emitters, eval_one_emitter", "include/feign/core/emitter.h"]}
{"id": "C94", "title": "Emitted light is counted at most once", "statement": "On every path, the light emitted by a surface is added at a vertex only when the previous vertex could not have sampled that light (the camera or a specular surface), and lights are sampled only at surfaces that are not specular.", "quantifier": "all path histories, all materials, all scenes", "why_tests_cant": "Double counting depends on the sequence of materials along a random path of any length.", "anchors": ["src/shaders/simple_material.cpp", "src/shaders/wireframe_material.cpp", "src/integrators/path.cpp", "src/closure/material.cpp"]}
{"id": "C95", "title": "Sampling one light is an unbiased replacement for sampling all", "statement": "With n lights, light k is chosen for exactly the random numbers in [k/n, (k+1)/n), and then the recorded contribution is n times what light k alone gives, so the average is the sum over all lights.", "quantifier": "all light lists, all surfaces, all random numbers", "why_tests_cant": "An expectation, not an outcome.", "anchors": ["src/scene.cpp: eval_one_emitter, choose_emitter", "src/accel/light_naive.cpp"]}
{"id": "C96", "title": "Direct light is never negative", "statement": "The contribution of a light of non-negative color is non-negative for every surface and every random number.", "quantifier": "all surfaces, lights, directions", "why_tests_cant": "Fails only for directions within 1/1000 below the horizon.", "anchors": ["src/scene.cpp: eval_all_emitters, eval_one_emitter"]}
{"id": "C97", "title": "Area lights are weighted by the geometry term", "statement": "The contribution of a sampled point of a mesh light is its radiance times the cosine at the surface times the cosine at the light over the squared distance and the density per area, times the transmittance between, and zero when a solid surface is between.", "quantifier": "all surfaces, all light points facing the surface", "why_tests_cant": "Continuous input space.", "anchors": ["src/emitters/mesh.cpp", "src/scene.cpp"]}
{"id": "C98", "title": "A spot light shines exactly inside its cone", "statement": "For a unit direction, a point gets the radiance of a spot light exactly when the angle between the spot direction and the direction from the light to the point is below the given angle.", "quantifier": "all points, directions, angles from 0 to 180 degrees", "why_tests_cant": "Continuous input space.", "anchors": ["src/emitters/spot.cpp"]}
{"id": "C99", "title": "Environment lookups invert the latitude-longitude map", "statement": "The texture coordinate used for a direction is the one whose latitude-longitude direction it is, and every direction is looked up inside the unit square.", "quantifier": "all directions", "why_tests_cant": "Quadrant and wrap-around cases of a continuous map.", "anchors": ["src/emitters/environment.cpp"]}
{"id": "C100", "title": "Spatial light selection uses the cell of the position and favours near lights", "statement": "The distribution used at a position is that of the grid cell containing it, and nearer lights have larger weight.", "quantifier": "all positions, all grids, all lights", "why_tests_cant": "The wrong cell only changes the noise.", "anchors": ["src/accel/light_spatial.cpp"]}
{"id": "C101", "title": "A point light reaches a surface exactly when nothing solid is between", "statement": "The recorded contribution of a point light is absent when a solid surface lies between the surface and the light, and otherwise is its inverse-square irradiance times the cosine times the transmittance.", "quantifier": "all scenes, all surfaces and light positions", "why_tests_cant": "All arrangements of occluders.", "anchors": ["src/scene.cpp: eval_all_emitters, intersect_transmittance", "src/emitters/point.cpp"]}
{"id": "C102", "title": "Surfaces seen through a null material receive direct light", "statement": "A diffuse surface reached by a path through a surface with the null material samples the lights like any other.", "quantifier": "all paths through null materials", "why_tests_cant": "Depends on flags carried from one vertex to the next.", "anchors": ["src/bsdfs/null.cpp", "src/shaders/simple_material.cpp"]}
{"id": "C103", "title": "Transmittance estimators of a constant medium agree", "statement": "The homogeneous estimator returns the mean of the ratio-tracking estimator for a constant medium.", "quantifier": "all constant media and segments", "why_tests_cant": "Compares a closed form with the mean of a random walk.", "anchors": ["src/media/trans_ests/homo.cpp", "src/media/trans_ests/ratio.cpp", "include/feign/media/density_func.h"]}
{"id": "C104", "title": "Delta tracking passes a segment with the probability of its transmittance", "statement": "The probability that delta tracking reports no collision on a segment tends to exp of minus the integral of the extinction along it, for every color channel.", "quantifier": "all continuous extinction fields below the majorant, all segments", "why_tests_cant": "A probability over unboundedly many random numbers.", "anchors": ["src/media/sampling/delta.cpp", "include/feign/math/vector.h: max()"]}
{"id": "C105", "title": "Analytic distance sampling is exponential and matches the transmittance", "statement": "The analytically sampled distance has the exponential law of the extinction of the medium, and the probability of passing a segment is the transmittance reported for it.", "quantifier": "all constant media and segments", "why_tests_cant": "Distribution statement over a continuum.", "anchors": ["src/media/sampling/analytic.cpp", "src/media/trans_ests/homo.cpp"]}
{"id": "C106", "title": "Sampled distances respect the segment", "statement": "A sampled distance never lies before the start of the segment; ray marching scatters inside the segment or reports a distance beyond its end, with the probability given by the ray-marched transmittance.", "quantifier": "all samplers, fields, segments and random streams", "why_tests_cant": "Unbounded loops over random numbers.", "anchors": ["src/media/sampling/*"]}
{"id": "C107", "title": "The scattering weight is the albedo", "statement": "The weight returned by Media::sample at a scattering event is sca/(abs+sca) per channel, is defined and lies in [0,1].", "quantifier": "all non-negative coefficients", "why_tests_cant": "Needs all combinations of vanishing channels.", "anchors": ["src/media/standard.cpp"]}
{"id": "C108", "title": "Purely absorbing media never scatter", "statement": "With a black scattering coefficient Media::sample returns the transmittance estimate and no scattering event; otherwise it samples a distance and the weight only depends on whether it lies before the end.", "quantifier": "all media, segments and random streams", "why_tests_cant": "All media and random streams.", "anchors": ["src/media/standard.cpp"]}
{"id": "C109", "title": "A medium moves with its transform", "statement": "Transmittance and distance sampling of a transformed medium equal those of the untransformed medium with the density looked up at the inversely transformed world position; distances stay world distances.", "quantifier": "all affine transforms, rays, estimators, samplers", "why_tests_cant": "All transforms and estimators.", "anchors": ["src/media/standard.cpp", "src/math/transform.cpp"]}
{"id": "C110", "title": "Density fields and their bounds", "statement": "The maximum reported by a density bounds its values; a sphere density fills exactly its ball with the given density.", "quantifier": "all positions and parameters", "why_tests_cant": "Continuous input space.", "anchors": ["include/feign/media/density_func.h"]}
{"id": "C111", "title": "Media keep their own coefficients", "statement": "Every medium is evaluated with its own absorption and scattering coefficients.", "quantifier": "all lists of media and density objects", "why_tests_cant": "Depends on which objects are shared and on preprocessing order.", "anchors": ["src/media/standard.cpp: preProcess", "src/scene.cpp: preProcess"]}
{"id": "C112", "title": "Transmittance functions and free-flight densities fit together", "statement": "Surface-to-surface transmittance is 1 at depth 0, stays in [0,1] and never grows with depth; the free-flight densities are minus the derivatives of the corresponding survival probabilities.", "quantifier": "all parameters and depths", "why_tests_cant": "Derivatives over a continuum.", "anchors": ["src/media/trans_funcs/*"]}
{"id": "C113", "title": "Transmittance functions are reciprocal", "statement": "Starting in the medium and ending on a surface has the density of the reversed segment divided by sigmaBar; eval agrees with surfaceProbability and mediumPdf; sigmaBar is the density at depth 0; channels are independent.", "quantifier": "all functions, depths, end points", "why_tests_cant": "Continuous input space.", "anchors": ["src/media/trans_funcs/*"]}
{"id": "C114", "title": "Sampled optical depths follow the survival probability", "statement": "The depth sampled by a transmittance function exceeds t with the survival probability at t.", "quantifier": "all functions, depths and random numbers", "why_tests_cant": "Distribution statement over a continuum; a 40-step search.", "anchors": ["src/media/trans_funcs/*"]}
{"id": "C115", "title": "Rays leaving the scene collect all environment light", "statement": "A ray that leaves the scene collects the sum of the radiances of all environment emitters.", "quantifier": "all lists of environment emitters, all directions", "why_tests_cant": "All numbers of emitters.", "anchors": ["src/scene.cpp: env_emission"]}
{"id": "C116", "title": "The wireframe material draws the edges", "statement": "A point of a triangle is shaded with the wire material exactly when one of its barycentric coordinates is below the threshold, and with the mesh material elsewhere.", "quantifier": "all barycentric coordinates and thresholds", "why_tests_cant": "Continuous input space.", "anchors": ["src/shaders/wireframe_material.cpp"]}
{"id": "C117", "title": "Bounding boxes of distance shapes contain them", "statement": "Every point of a distance shape lies in the bounding box the shape reports.", "quantifier": "all shapes with sensible parameters", "why_tests_cant": "Continuous input space.", "anchors": ["src/shapes/sdf_*.cpp: boundingBox"]}
{"id": "C118", "title": "The scene distance is the distance to the nearest shape", "statement": "Evaluating the distance scene gives the smallest shape distance and the index of the first shape attaining it; the value does not depend on the order of the shapes; outside all shapes it is the distance to their union.", "quantifier": "all lists of shapes, all points", "why_tests_cant": "All lists of shapes and all orders.", "anchors": ["src/accel/ray_sdf.cpp: evaluate"]}
{"id": "C119", "title": "Distance-field hits carry a unit outward normal and an offset point", "statement": "A reported hit has orthonormal frames whose normal points away from the surface, and its position is the point of the ray moved by Epsilon along the normal.", "quantifier": "all scenes and rays", "why_tests_cant": "Finite differences over a continuum of points.", "anchors": ["src/accel/ray_sdf.cpp: intersect, normal"]}
{"id": "C120", "title": "Distance-field intersection respects the range of the ray", "statement": "No hit beyond the far end of the ray is reported.", "quantifier": "all scenes, rays and ranges", "why_tests_cant": "All ranges.", "anchors": ["src/accel/ray_sdf.cpp: intersect"]}
{"id": "C121", "title": "The smooth union stays within k/4 below the union", "statement": "smooth_union never exceeds the minimum of the two distances, is at most k/4 below it, equals it when the distances differ by at least k, and is symmetric.", "quantifier": "all distances and positive blending widths", "why_tests_cant": "Continuous input space.", "anchors": ["src/accel/ray_sdf.cpp: smooth union"]}
{"id": "C122", "title": "Transmittance and distance sampling only look at the segment", "statement": "Transmittance estimates and sampled distances depend on the density only at points of the segment; estimators without an implementation throw instead of returning a value.", "quantifier": "all density fields, estimators, samplers, segments and random streams", "why_tests_cant": "All fields and random streams.", "anchors": ["src/media/trans_ests/*", "src/media/sampling/*"]}
{"id": "C123", "title": "Completed mesh intersections agree with the ray and the triangle", "statement": "The completed intersection of a mesh hit has the position of the ray at the reported distance, an orthonormal geometric frame perpendicular to the face on the side given by the winding, and normals and texture coordinates interpolated with the barycentric weights, on the side of the vertex normals.", "quantifier": "all meshes, rays and hits", "why_tests_cant": "Continuous input space and unbounded meshes.", "anchors": ["src/shapes/objmesh.cpp: completeIntersectionInfo"]}
{"id": "C124", "title": "Mesh boxes, areas and centroids", "statement": "Triangle and mesh boxes are the smallest boxes of their point sets, areas and centroids are those of elementary geometry, and the scene bounds contain the scene.", "quantifier": "all meshes and scenes", "why_tests_cant": "Unbounded vertex lists.", "anchors": ["src/shapes/objmesh.cpp", "src/scene.cpp: preProcess", "src/api.cpp"]}
{"id": "C125", "title": "OBJ files are loaded as written", "statement": "Every well-formed triangle file is loaded with its vertices, normals, texture coordinates and faces in order with zero-based indices; a file accepted by the loader can be rendered.", "quantifier": "all files", "why_tests_cant": "All files.", "anchors": ["src/shapes/objmesh.cpp: parse"]}
{"id": "C126", "title": "The sphere-blending shader gives finite meshes", "statement": "After InterpVertsToSphere every vertex lies on the segment from its old position to the sphere about the centroid, and all normals are unit vectors.", "quantifier": "all meshes, blending weights and sphere sizes", "why_tests_cant": "Depends on the order in which the mesh is preprocessed.", "anchors": ["src/shaders/interp_verts_to_sphere.cpp", "src/shapes/objmesh.cpp: preProcess"]}
{"id": "C127", "title": "Terrain grids face up", "statement": "For every height field all triangles of a generated grid face up and all vertex normals are unit vectors on the upper side, also after an affine transform.", "quantifier": "all height fields, resolutions and affine transforms", "why_tests_cant": "All height fields.", "anchors": ["src/shapes/grid_obj.cpp"]}
{"id": "C128", "title": "Radius queries gather within the radius", "statement": "A photon query with a radius gathers exactly the photons closer than the radius and divides by the area of the disc of that radius.", "quantifier": "all photon maps, points and radii", "why_tests_cant": "Continuous input space, unbounded maps.", "anchors": ["src/accel/photon_array.cpp: nearPhoton, eval"]}
{"id": "C129", "title": "The photon map holds the power that arrives", "statement": "The total power of the stored photons is the emitted power times the fraction of the emitted paths that arrive; photons are normalised by the number of emitted paths.", "quantifier": "all scenes and random streams", "why_tests_cant": "Depends on whole emission histories.", "anchors": ["src/integrators/photon.cpp: scatter_photons"]}
{"id": "C130", "title": "Russian roulette of photons is unbiased", "statement": "The expected power of a photon path after the roulette is its power before, whatever the colour of the light and the surface.", "quantifier": "all powers and reflectances", "why_tests_cant": "An expectation over all random numbers.", "anchors": ["src/integrators/photon.cpp: scatter_photons"]}
{"id": "C131", "title": "Every light emits photons of its share of the power", "statement": "Photons start at the lights of the scene; each carries the power of its light divided by the probability of choosing it; this works for every supported light.", "quantifier": "all light lists and random streams", "why_tests_cant": "All light lists.", "anchors": ["src/scene.cpp: choose_emitter", "src/emitters/*: sample_ray"]}
{"id": "C132", "title": "A texture resampled at its own size is the image", "statement": "Evaluating an image texture on the pixel grid of its own image reproduces every pixel of the image times the scale.", "quantifier": "all images, scales and sizes", "why_tests_cant": "All images and sizes.", "anchors": ["src/textures/image_texture.cpp", "src/textures/texture.cpp: evaluate_image"]}
{"id": "C133", "title": "Sine textures", "statement": "A sine texture stays within offset plus or minus amplitude per channel, its first channel only depends on the distance to the centre and its second on v, and each channel oscillates with its own amplitude and frequency.", "quantifier": "all parameters and coordinates", "why_tests_cant": "Continuous input space.", "anchors": ["src/textures/sin_texture.cpp"]}
{"id": "C134", "title": "Command line", "statement": "Without a test flag exactly the scene named by the last -s is rendered, whatever other arguments stand before or between; a malformed command line is refused; the exit code of a test run is 0 or -1.", "quantifier": "all argument vectors", "why_tests_cant": "All argument vectors.", "anchors": ["src/main.cpp"]}
{"id": "C135", "title": "Names of tests", "statement": "Different test indices name different scene files, indices below 1000 are padded to three digits, and running all tests selects exactly the scene files of the directory.", "quantifier": "all indices and directory contents", "why_tests_cant": "All indices and directories.", "anchors": ["src/test/tester.cpp", "include/feign/test/tester.h"]}
{"id": "C136", "title": "Scene files are read as written", "statement": "A block of a scene file whose members describe an API call, in any order, with defaults left out and unknown members added, makes exactly that call with exactly those parameters, surrounded by its own transforms; a file makes the calls of its blocks in order.", "quantifier": "all blocks of all kinds, all files", "why_tests_cant": "All files.", "anchors": ["src/parsers/json_parser.cpp"]}
{"id": "C137", "title": "Every parameter can be set from a scene file", "statement": "The scale of a texture, the coefficients of a medium and the frame of a camera can be set from a scene file.", "quantifier": "all blocks", "why_tests_cant": "All files.", "anchors": ["src/parsers/json_parser.cpp: 182-200, 440-466, 1185-1225"]}
{"id": "C138", "title": "Loading a scene file builds the scene it describes", "statement": "Loading a well-formed scene file succeeds; afterwards every named thing has the class, parameters and references of its block, every object has its mesh, material, emitter and its own transforms composed in file order, and the scene uses the named integrator, sampler, camera and medium.", "quantifier": "all well-formed scene files", "why_tests_cant": "All files; a composition of parser and API.", "anchors": ["src/parsers/json_parser.cpp", "src/api.cpp"]}
{"id": "C139", "title": "The order of the members of a block is immaterial", "statement": "Permuting the members of a block does not change what it means, except for the transforms of an object, which apply in file order; of two members of the same name the same one counts everywhere.", "quantifier": "all blocks and permutations", "why_tests_cant": "All permutations.", "anchors": ["src/parsers/json_parser.cpp"]}
{"id": "C140", "title": "The order of the blocks is immaterial", "statement": "Permuting the blocks of a scene file does not change whether it can be loaded.", "quantifier": "all files and permutations", "why_tests_cant": "All permutations.", "anchors": ["src/parsers/json_parser.cpp", "src/api.cpp"]}
{"id": "C141", "title": "Malformed scene files are reported", "statement": "A scene file that is missing, has an unknown block or an unknown class is refused with an exception.", "quantifier": "all files", "why_tests_cant": "All malformed files.", "anchors": ["src/parsers/json_parser.cpp"]}
{"id": "C142", "title": "Volumetric paths end", "statement": "A path of the volumetric path integrators has at most max_bounces scattering events and surface vertices; crossing boundaries does not count; in a scene with finitely many surfaces on every line rendering a pixel terminates.", "quantifier": "all scenes, media, shaders and random streams", "why_tests_cant": "All scenes and random streams.", "anchors": ["src/integrators/volpath.cpp", "src/integrators/volpath_nonexp.cpp"]}
{"id": "C143", "title": "Volumetric radiance is the sum of attenuated contributions", "statement": "The radiance of a volumetric path is the sum over its events of the light found there times what the path carries, where the events are connected as the scene, the media and the phase functions say; non-negative lights and weights give a non-negative radiance.", "quantifier": "all scenes, media, shaders and random streams", "why_tests_cant": "All scenes and random streams.", "anchors": ["src/integrators/volpath.cpp", "src/integrators/volpath_nonexp.cpp"]}
{"id": "C144", "title": "Without media the volumetric integrator is the path integrator", "statement": "In a scene without media and boundaries the volumetric path integrator uses the same random numbers, casts the same rays and returns the same radiance as the path integrator.", "quantifier": "all scenes without media, all shaders and random streams", "why_tests_cant": "An equivalence of two programs over all scenes.", "anchors": ["src/integrators/volpath.cpp", "src/integrators/path_unidir.cpp"]}
{"id": "C145", "title": "Every segment is crossed in the medium it lies in", "statement": "Each segment of a path is attenuated exactly once by the medium behind the last boundary crossed; leaving an object a path is again in the medium around it.", "quantifier": "all scenes, media and random streams", "why_tests_cant": "All sequences of boundary crossings.", "anchors": ["src/integrators/volpath.cpp", "src/api.cpp: 878-894"]}
{"id": "C146", "title": "Emitted light is counted once in media", "statement": "Light emitted by a shape is counted at a vertex only when the previous vertex, on a surface or in a medium, did not sample lights.", "quantifier": "all scenes, media and random streams", "why_tests_cant": "Depends on whole path histories.", "anchors": ["src/integrators/volpath.cpp", "src/materials/simple_material.cpp"]}
{"id": "C147", "title": "Direct light in media is scattered by the phase function", "statement": "The direct light at a scattering event is weighted with the phase function for the direction of the light.", "quantifier": "all phase functions, lights and random streams", "why_tests_cant": "Continuous input space.", "anchors": ["src/integrators/volpath.cpp: 79-104"]}
{"id": "C148", "title": "The environment is seen through the medium", "statement": "Light of the environment is attenuated by the medium the path is in.", "quantifier": "all environments and media", "why_tests_cant": "All media.", "anchors": ["src/integrators/volpath.cpp: 53-60"]}
{"id": "C149", "title": "Roulette in media is unbiased", "statement": "Averaged over the random number of the roulette, a path carries after a scattering event what it would carry without roulette.", "quantifier": "all weights", "why_tests_cant": "An expectation over all random numbers.", "anchors": ["src/integrators/volpath.cpp: 106-113"]}
{"id": "C150", "title": "Volumetric rendering balances its clocks", "statement": "Rendering with a volumetric integrator raises no clock error and leaves all clocks as they were.", "quantifier": "all scenes, films and random streams", "why_tests_cant": "All interleavings of clock calls.", "anchors": ["src/integrators/volpath.cpp", "src/accel/ray_embree.cpp"]}
{"id": "C151", "title": "The transmittance view", "statement": "The transmittance integrator returns 1 where no medium lies behind the first surface and otherwise the transmittance of the medium between entry and exit, for every boundary and shape.", "quantifier": "all scenes and rays", "why_tests_cant": "All scenes.", "anchors": ["src/integrators/volpath_trans.cpp"]}
{"id": "C152", "title": "Media know whether a segment starts on a surface", "statement": "The vertex flag passed to distance and light sampling says whether the previous vertex lies on a surface or in a medium.", "quantifier": "all scenes and random streams", "why_tests_cant": "Depends on whole path histories; uninitialised memory.", "anchors": ["src/integrators/volpath.cpp", "src/integrators/volpath_nonexp.cpp", "include/feign/core/closure.h"]}
{"id": "C153", "title": "Light samples are used at their own vertex", "statement": "Light samples taken at a vertex contribute at that vertex only.", "quantifier": "all scenes and random streams", "why_tests_cant": "Depends on whole path histories.", "anchors": ["src/integrators/volpath.cpp", "include/feign/core/closure.h"]}
{"id": "C154", "title": "Every light can be sampled at a scattering event", "statement": "A light that is visible from a scattering event can be chosen by light sampling there.", "quantifier": "all lights and events", "why_tests_cant": "All scenes.", "anchors": ["src/scene.cpp: 634-661", "src/integrators/volpath.cpp"]}
{"id": "C155", "title": "Reseeding and copying a sampler", "statement": "After reseed(z), and in a copy made with seed z, a sampler returns the numbers of seed z from the start, whatever was drawn before; reseed() rewinds to the last seed; a copy keeps the sample count and does not disturb the original.  Moving to the next sample only counts, and the numbers go on.", "quantifier": "all samplers, seeds and sequences of operations", "why_tests_cant": "All sequences of operations.", "anchors": ["src/samplers/independent.cpp", "include/feign/core/sampler.h"]}
{"id": "C156", "title": "The seed of a scene selects its random numbers", "statement": "The seed given to the sampler of a scene determines the random numbers of the render: other seeds give other noise.", "quantifier": "all scenes, integrators, films, seeds and generators", "why_tests_cant": "Needs a comparison of whole renders over all scenes.", "anchors": ["src/api/api.cpp: fr_sampler", "src/scene.cpp: preProcess, renderScene", "src/misc/render_pool.cpp: 172, 197"]}
{"id": "C157", "title": "The sample count is the number of samples per pixel", "statement": "A render takes exactly sample_cnt samples in every pixel; a count that is not positive gives an empty image.", "quantifier": "all sample counts and films", "why_tests_cant": "All counts; the failing run has 2^31 iterations.", "anchors": ["src/integrators/integrator.cpp: 48", "src/samplers/sampler.cpp: getSampleCnt"]}
{"id": "C158", "title": "Renders do not depend on the compiler", "statement": "The same scene, seed and generator give the same image with every conforming compiler.", "quantifier": "all compilers (orders of argument evaluation)", "why_tests_cant": "A test runs one compiler.", "anchors": ["src/samplers/independent.cpp: next2D, next3D, next4D"]}
{"id": "C159", "title": "A plain copy of a sampler can be used like the original", "statement": "A sampler made by copy() has the seed and the sample count of the original.", "quantifier": "all samplers", "why_tests_cant": "Reads uninitialised memory: a test sees whatever was there.", "anchors": ["src/samplers/independent.cpp: copy"]}
{"id": "C160", "title": "Unfinished samplers are refused", "statement": "Latin and Halton samplers never return a number: every use raises an exception, and the API never creates one.", "quantifier": "all states, programs and argument orders", "why_tests_cant": "All programs.", "anchors": ["src/samplers/latin.cpp", "src/samplers/halton.cpp", "src/api/api.cpp: fr_sampler"]}
{"id": "C161", "title": "Rendering into an image given by the caller", "statement": "When an image is handed to the renderer the picture is that of a camera whose film has the size of the image.", "quantifier": "all cameras, image sizes and film positions", "why_tests_cant": "Continuous input space, all sizes.", "anchors": ["src/scene.cpp: 139-148", "src/cameras/perspective.cpp"]}
{"id": "C162", "title": "An emitter shared by several objects", "statement": "When several objects name the same emitter, light is sampled on the mesh of each of them.", "quantifier": "all descriptions, all iteration orders of the object table", "why_tests_cant": "Depends on the iteration order of a hash table.", "anchors": ["src/api/api.cpp: 1516-1533", "src/scene.cpp: 108-118", "src/emitters/mesh_emitter.cpp"]}
{"id": "C163", "title": "Clean-up frees everything exactly once", "statement": "After a render every object created with new since initialize is deleted, none twice and none that was not created.", "quantifier": "all descriptions, all iteration orders of all tables", "why_tests_cant": "Leaks and double frees are not observable results; all orders.", "anchors": ["src/api/api.cpp: clean_up", "include/feign/core/node.h", "src/scene.cpp: ~Scene"]}
{"id": "C164", "title": "Renders of one process are independent", "statement": "What a caller observes after initialize does not depend on anything done before it; using the API without initialize or after a render is undefined; a scene is rendered with the ray accelerator its own scene call asked for.", "quantifier": "all sequences of initialize, calls and flushes", "why_tests_cant": "All histories.", "anchors": ["src/api/api.cpp: initialize, flush_renders, clean_up", "src/stats/clocker.cpp", "include/feign/common.h: 121"]}
{"id": "C165", "title": "A hit belongs to the mesh that was hit", "statement": "The shape reported for a hit is the shape of the scene that Embree found nearest.", "quantifier": "all lists of shapes, all rays, every correct Embree", "why_tests_cant": "All scenes mixing meshes and distance shapes.", "anchors": ["src/accel/ray_embree.cpp: 36-110", "src/scene.cpp: 63-106"]}
{"id": "C166", "title": "Every shape of a scene can be hit", "statement": "Shapes given as distance functions and shapes given as triangles are found by rays in every mode.", "quantifier": "all lists of shapes, all rays", "why_tests_cant": "All scenes and modes; one failure is undefined behaviour.", "anchors": ["src/scene.cpp: 63-81", "src/accel/ray_sdf.cpp: 24-40", "src/accel/ray_embree.cpp: 36-62"]}
{"id": "C167", "title": "Pixels are averages up to rounding", "statement": "In single precision rendering never leaves the film; a pixel without samples strictly inside it is black; a pixel with n samples (n up to 2^24) whose value is finite differs from their mean by at most ((1+2^-24)^(n+1) - 1) times the mean of the absolute values plus 2^-150; for n < 2^23 and non-negative samples by at most (n+1)/2^23 of the mean.", "quantifier": "all film sizes up to 2^22, all lists of samples, all pixels", "why_tests_cant": "Rounding errors over all sample sequences.", "anchors": ["src/integrators/integrator.cpp: 39-133", "src/filters/box_filter.cpp"]}
{"id": "C168", "title": "More samples give a better image", "statement": "However many samples a pixel gets, it is the mean of all of them up to rounding.", "quantifier": "all numbers of samples", "why_tests_cant": "Needs more than 2^24 samples per pixel.", "anchors": ["src/integrators/integrator.cpp: 95-130"]}
{"id": "C169", "title": "A sample that is not a number stays in its pixel", "statement": "An infinite or undefined radiance spoils at most the pixel its sample lies in.", "quantifier": "all films, lists of samples and positions", "why_tests_cant": "All positions and sample lists.", "anchors": ["src/integrators/integrator.cpp: 80-130", "src/filters/box_filter.cpp"]}
{"id": "C170", "title": "A constant radiance gives a constant image", "statement": "If every sample of a pixel has the radiance c, the pixel is c, in single precision.", "quantifier": "all constants and sample counts", "why_tests_cant": "All constants and counts.", "anchors": ["src/integrators/integrator.cpp: 95-130"]}
{"id": "C171", "title": "Every camera sample counts for the pixel it was made for", "statement": "The sample taken at pixel (j, i) with random offset in (0,1)^2 has weight one in that pixel and none elsewhere, in single precision.", "quantifier": "all pixels and random numbers", "why_tests_cant": "All pixels times all random numbers.", "anchors": ["src/integrators/integrator.cpp: 54", "src/filters/box_filter.cpp: 13-32"]}
{"id": "C172", "title": "Choosing a light in single precision", "statement": "For up to 2^24 lights and every draw of 23 random bits the index of the chosen light is valid; each light is chosen with probability 1/n up to 3/2^24, the stored pmf is 1/n up to rounding, and with at most 2^22 lights every light can be chosen.", "quantifier": "all numbers of lights, all draws", "why_tests_cant": "2^23 draws times 2^24 counts; rounding up to n would read out of bounds.", "anchors": ["src/accel/light_naive.cpp: 18-46"]}
{"id": "C173", "title": "Tiles get different seeds", "statement": "The seed drawn for a tile lies in [0, 10^8); different random numbers give different seeds, although the product is rounded to 24 bits.", "quantifier": "all pairs of draws", "why_tests_cant": "All pairs of 2^23 draws.", "anchors": ["src/misc/render_pool.cpp: 172, 197"]}
{"id": "C174", "title": "Shadow rays end before the light and rays start after the surface", "statement": "The end of a shadow ray is less than the distance to the light, and the start of a continued ray is more than the distance to the surface, in single precision.", "quantifier": "all distances", "why_tests_cant": "All floats.", "anchors": ["src/scene.cpp: 192, 243, 278, 308, 405, 496, 592"]}
{"id": "C175", "title": "Looking through null surfaces ends", "statement": "The search for the next surface that is not a null boundary ends on every ray with finitely many surfaces, in single precision.", "quantifier": "all rays and finite lists of surfaces, all accelerators that report the nearest surface", "why_tests_cant": "Non-termination; all arrangements.", "anchors": ["src/scene.cpp: 181-202"]}
{"id": "C176", "title": "Boundaries without a material are looked through among distance shapes", "statement": "In a scene of distance shapes a path and a shadow ray that meet a shape without a material pass through it and go on to what is behind.", "quantifier": "all scenes of distance shapes, all rays, all markings of shapes as null", "why_tests_cant": "Non-termination; all arrangements.", "anchors": ["src/scene.cpp: 181-202, 261-315", "src/accel/ray_sdf.cpp: 113-180"]}
{"id": "C177", "title": "Only what lies before a light shadows it", "statement": "In a scene of distance shapes a point light is shadowed at a point exactly when a shape lies on the segment between them.", "quantifier": "all scenes of distance shapes, points, lights and random numbers", "why_tests_cant": "All scenes; the error needs an occluder behind the light.", "anchors": ["src/scene.cpp: 458-535", "src/accel/ray_sdf.cpp: 113-180", "src/emitters/point.cpp"]}
{"id": "C178", "title": "A distance shape does not shadow itself", "statement": "A ray that leaves a point found on a distance shape towards the outside does not meet the same shape again.", "quantifier": "all shapes, all viewing rays, all directions", "why_tests_cant": "All directions; depends on how the reported point is offset along a numeric normal.", "anchors": ["src/accel/ray_sdf.cpp: 60-180"]}
{"id": "C179", "title": "The overview page lists every test once", "statement": "The overview links every scene file of the test directory exactly once, in alphabetical order, in complete rows of three of which only the last may be shorter, and nothing else.", "quantifier": "all directory contents", "why_tests_cant": "All directories; the row logic depends on the count modulo three.", "anchors": ["src/test/site_assembler.cpp: 22-115"]}
{"id": "C180", "title": "Every test has its own page", "statement": "After a run over the tests every link of the overview leads to a page that was written, and the page of a test is the page about that test.", "quantifier": "all directory contents, both modes, all tests", "why_tests_cant": "All names; a clash needs one particular name.", "anchors": ["src/test/site_assembler.cpp: 22-299", "src/test/tester.cpp: 79-131"]}
{"id": "C181", "title": "A test page shows the images of its test", "statement": "Every picture on the page of a test is an image of that test that a run has written, and every error image of the test is on its page.", "quantifier": "all tests", "why_tests_cant": "All names; the one test the page was written with looks right.", "anchors": ["src/test/site_assembler.cpp: 117-299", "src/test/test.cpp: 17-91"]}
{"id": "C182", "title": "Every graph shows the quantity it is named after", "statement": "A record has the number of columns the plotting script expects, and each graph on a test page is a file that the script draws from the column holding the quantity in its name.", "quantifier": "all records, tests and graphs", "why_tests_cant": "Two programs in different languages share only column numbers and file names.", "anchors": ["src/test/site_assembler.cpp: 229-327", "src/stats/clocker.cpp", "scenes/unit_tests/web_viewer/scripts/generate_clocking_graphs.py: 91-173"]}
{"id": "C183", "title": "Recording a test deletes its old graphs and nothing else", "statement": "Recording a test adds one row to its own record, deletes the old graphs of that test and no other file.", "quantifier": "all directories and names", "why_tests_cant": "All names; running it deletes files.", "anchors": ["src/test/site_assembler.cpp: 303-327"]}
{"id": "C184", "title": "The sandbox integrator shows direct light", "statement": "The sandbox integrator gives the image of the volumetric path integrator limited to one bounce: emitted and direct light of the first surface or of the first scattering event.", "quantifier": "all scenes, shaders, media, light samplers and random numbers", "why_tests_cant": "All scenes and random streams; relates two programs.", "anchors": ["src/debug_integrators/sandbox.cpp: 29-208", "src/integrators/volpath.cpp: 26-209"]}
{"id": "C185", "title": "The sandbox integrator balances its clocks", "statement": "Rendering with the sandbox integrator starts and stops every clock properly.", "quantifier": "all scenes, films and random streams", "why_tests_cant": "All executions.", "anchors": ["src/debug_integrators/sandbox.cpp: 29-208", "src/accel/ray_embree.cpp: 56-101"]}
{"id": "C186", "title": "A scene file renders exactly when nothing it names is missing", "statement": "A scene file whose blocks load can be handed over to the renderer if and only if every integrator, sampler, camera, medium, mesh and emitter that one of its blocks names is defined by a block of the file.", "quantifier": "all scene files with distinct names and the scene before lights, all orders in which the tables are walked", "why_tests_cant": "All files and all hash-table orders; an equivalence.", "anchors": ["src/parsers/json_parser.cpp: 56-1225", "src/api/api.cpp: 1501-1582"]}
{"id": "C187", "title": "Scene files follow the documented format", "statement": "Every member documented in scenes/scene_file_format.txt is read under that name, and a documented member that is left out has the documented default.", "quantifier": "all blocks and members", "why_tests_cant": "All files; documentation against code.", "anchors": ["scenes/scene_file_format.txt: 23-290", "src/parsers/json_parser.cpp: 89-1132"]}
{"id": "C188", "title": "Brighter lights give a proportionally brighter image", "statement": "If the light of every emitter of a scene is multiplied, channel by channel, by the same factors, the path, Whitted and volumetric path integrators cast the same rays, draw the same random numbers and make the same clock calls, and every camera sample and every pixel of the image (one or many threads) is multiplied by these factors.", "quantifier": "all scenes, emitters, materials, cameras, filters, films, factors, random streams and thread schedules", "why_tests_cant": "Relates two renders of different scenes, for all scenes and random streams.", "anchors": ["src/scene.cpp: 361-707", "src/emitters/*.cpp", "src/integrators/path_unidir.cpp: 28-145", "src/integrators/whitted.cpp: 31-128", "src/integrators/volpath.cpp: 26-209", "src/integrators/integrator.cpp: 39-133"]}
{"id": "C189", "title": "The image does not depend on where the world is placed", "statement": "Moving all surfaces, lights and the camera with its target by the same vector leaves every camera sample and every pixel unchanged, for the path, Whitted and volumetric path integrators and for the ambient occlusion, normal, cosine and wireframe views.", "quantifier": "all scenes, displacements, cameras, random streams", "why_tests_cant": "Relates two renders; all scenes and displacements.", "anchors": ["src/scene.cpp: 361-707", "src/emitters/*.cpp", "src/cameras/perspective.cpp", "src/integrators/*.cpp", "src/debug_integrators/*.cpp"]}
{"id": "C190", "title": "Camera samples are bounded", "statement": "In a scene lit by glowing objects and the sky, of diffuse surfaces, mirrors and glass of albedo at most one, a camera sample of the path integrator with at most n bounces lies between 0 and n times the brightest light, whatever the Russian roulette does.", "quantifier": "all such scenes, rays and random streams", "why_tests_cant": "All paths and random streams; the roulette divides by small probabilities.", "anchors": ["src/integrators/path_unidir.cpp: 28-145", "src/bsdfs/diffuse.cpp", "src/bsdfs/mirror.cpp", "src/bsdfs/dielectric.cpp", "src/bsdfs/one_way_dielectric.cpp"]}
{"id": "C191", "title": "White surfaces vanish in a uniform sky", "statement": "If every surface reflects or transmits everything and the only light is a sky of radiance L, a camera sample of the path integrator is exactly L if its path leaves the scene and exactly 0 otherwise.", "quantifier": "all such scenes, rays and random streams", "why_tests_cant": "All scenes and random streams (the furnace test, exactly).", "anchors": ["src/integrators/path_unidir.cpp: 28-145", "src/bsdfs/diffuse.cpp", "src/bsdfs/mirror.cpp", "src/bsdfs/dielectric.cpp", "src/emitters/environment.cpp"]}
{"id": "C192", "title": "Normalised vectors are unit vectors in single precision", "statement": "Normalising a finite vector gives finite components between -1 and 1, length one up to rounding, in the direction of the vector.", "quantifier": "all vectors of floats", "why_tests_cant": "All 2^96 vectors; overflow and underflow of the squares.", "anchors": ["include/feign/math/vector.h: 540-563"]}
{"id": "C193", "title": "Looking up an environment map stays inside the image", "statement": "A ray that leaves the scene reads a pixel of the environment image, in single precision, whatever the C library returns for atan2 and acos.", "quantifier": "all directions of rays, images and scales", "why_tests_cant": "A component one unit in the last place above 1 makes acos undefined; needs particular normals and directions.", "anchors": ["src/emitters/environment.cpp: 47-68", "src/textures/image_texture.cpp: 27-52", "src/bsdfs/mirror.cpp: 19-40", "src/math/coord_frame.cpp: 32-118"]}
{"id": "C194", "title": "Sampled directions are unit vectors in single precision", "statement": "The maps from the unit square to the disk, the sphere, the sphere cap and the cosine hemisphere give finite components between -1 and 1 for every float in [0,1]; directions have length one up to rounding and never go below the hemisphere.", "quantifier": "all draws, all values of the C library for sine and cosine", "why_tests_cant": "All floats; a square root of a negative number would need one particular draw.", "anchors": ["src/math/warp.cpp: 14-80"]}
{"id": "C195", "title": "Camera samples of the path integrator are finite in single precision", "statement": "Along any path of up to 900000 surfaces that do not create energy (up to rounding), lit by lights of at most 2^k, the sample is finite, not negative and at most 3(n+1)2^k, for every number drawn for the roulette, 0 included.", "quantifier": "all paths, surfaces, lights and draws", "why_tests_cant": "All paths; division by a roulette probability that could be 0.", "anchors": ["src/integrators/path_unidir.cpp: 28-145", "include/feign/math/vector.h: 367-401, 725-794"]}
{"id": "C196", "title": "Camera samples of the volumetric path integrators are finite in single precision", "statement": "The same for paths through media with weights in [0,1].", "quantifier": "all paths, media weights, surfaces, lights and draws", "why_tests_cant": "Needs a draw of exactly 0 after an opaque medium.", "anchors": ["src/integrators/volpath.cpp: 26-210", "src/integrators/volpath_nonexp.cpp: 52-226"]}
{"id": "C197", "title": "Rounding hardly changes a camera sample", "statement": "Along any path of n surfaces whose contributions do not underflow, the camera sample of the path integrator in single precision is the exact path estimate (light of every surface times albedo, cosine, one over density and one over survival probability of the surfaces before) up to a relative error of 12(n+1)/2^24; the survival probabilities and the tests for a black throughput are the exact ones up to rounding, and the path goes on exactly when the number drawn is at most the survival probability.", "quantifier": "all paths, surfaces, lights and draws", "why_tests_cant": "Rounding errors over all paths; errors of the roulette probability enter the result.", "anchors": ["src/integrators/path_unidir.cpp: 28-145", "include/feign/math/vector.h: 367-401, 725-794"]}
{"id": "C198", "title": "Light adds up", "statement": "If two scenes differ only in the strengths of their lights, and a third has the sums of these strengths, then the path, Whitted and volumetric path integrators cast the same rays and use the same random numbers in all three, and the radiance along every ray, every camera sample and every pixel of the third (one or many threads) is the sum of those of the first two.  In particular, with the lights sorted into two groups, the picture is the picture with the one group switched off plus the picture with the other group switched off.", "quantifier": "all scenes, emitters, groups of lights, materials, media, cameras, filters, films, random streams and thread schedules", "why_tests_cant": "Relates three renders of different scenes, for all scenes and random streams.", "anchors": ["src/scene.cpp: 361-707", "src/emitters/*.cpp", "src/integrators/path_unidir.cpp: 28-145", "src/integrators/whitted.cpp: 31-128", "src/integrators/volpath.cpp: 26-209", "src/integrators/integrator.cpp: 39-133"]}
{"id": "C199", "title": "Averages of camera samples converge to the light that arrives", "statement": "If surfaces and media do not create light and no vertex sends out more than L, the mean value of a camera sample of the volumetric path integrators with at most n vertices, over independent random numbers of resolution d, is the light that arrives along the ray over n vertices (what each vertex sends out plus what it scatters of the light that arrives at it, without Russian roulette or throughput), short by at most n L / 10000 and over by at most n n L d: Russian roulette does not change the average.", "quantifier": "all scenes, rays, media, bounce limits and distributions of the random numbers that are even up to steps of d, in particular numbers k/N", "why_tests_cant": "A statement about mean values over all random streams; tests see noise.", "anchors": ["src/integrators/volpath.cpp: 26-209", "src/integrators/volpath_nonexp.cpp: 27-225", "include/feign/math/vector.h: 789-794"]}
{"id": "C200", "title": "More samples give less noise", "statement": "In the scenes of C199 the mean of N independent samples of a pixel (a random position in the pixel and the radiance along its camera ray) differs from the light that arrives at the pixel by at most (n L)^2 / (4 N) in mean square, plus the square of the bias of C199; it is off by t or more with a probability of at most that over t squared.", "quantifier": "all scenes, media, cameras, pixels, sample counts and thresholds, all distributions of the random numbers that are even up to steps of d", "why_tests_cant": "Probabilities over all random streams.", "anchors": ["src/integrators/volpath.cpp: 26-209", "src/integrators/volpath_nonexp.cpp: 27-225", "src/integrators/integrator.cpp: 39-133"]}
{"id": "C201", "title": "The bounce limit leaves out little", "statement": "In the scenes of C199, if surfaces and media pass on at most the share rho < 1 of the light, raising the bounce limit from n to n + k never takes light away and adds at most L rho^n / (1 - rho); so does the mean camera sample, up to the bias of C199.", "quantifier": "all scenes, rays, media, bounce limits and distributions of the random numbers that are even up to steps of d", "why_tests_cant": "Mean values over all random streams, and all numbers of bounces at once.", "anchors": ["src/integrators/volpath.cpp: 26-209", "src/integrators/path_unidir.cpp: 28-145"]}
{"id": "C202", "title": "A beam lights what its mesh is seen from", "statement": "A light that shines from a mesh into one direction (directional_mesh) lights exactly the points from which its mesh is the first solid thing against that direction, with the intensity over the squared distance, times the cosine and what the media in between let through.", "quantifier": "all scenes of surfaces at least 1/1000 apart on every line, all points, directions and intensities", "why_tests_cant": "The outcome depends on an uninitialised value and on the length of the direction given, for all scenes.", "anchors": ["src/emitters/directional_mesh.cpp", "src/scene.cpp: eval_all_emitters, eval_one_emitter", "include/feign/core/emitter.h"]}
{"id": "C203", "title": "Mean, noise and bounce limit of the path integrator", "statement": "In scenes without null surfaces whose surfaces do not create light and where no vertex sends out more than L, the mean of what the path integrator returns along a ray, over all sequences of random numbers 0, 1/N, ..., (N-1)/N, is the light that arrives over n vertices, short by at most n L / 10000 and over by at most n n L / N, with any clocks and any log.  The mean of S samples of a pixel, taken one after the other, is off in mean square by at most (n L)^2 / (4 S) plus the square of that bias.  If the surfaces pass on at most the share rho, k more vertices add between 0 and L (rho^n + ... + rho^(n+k-1)).", "quantifier": "all scenes, rays, cameras, bounce limits, resolutions, sample counts, clocks and logs", "why_tests_cant": "Mean values over all random streams; tests see noise.", "anchors": ["src/integrators/path_unidir.cpp: 28-145", "src/integrators/integrator.cpp: 39-133", "src/scene.cpp: 361-707"]}
{"id": "C204", "title": "Brighter paint never darkens the picture", "statement": "If diffuse surfaces, mirrors and glass of a scene are given brighter colours (no channel of any colour gets darker, all at most 1), no channel of the light that arrives along any ray over any number of vertices gets darker, and neither does the mean of the samples of the path and the volumetric path integrator, up to the bias of C199 and C203.", "quantifier": "all scenes with point and mesh lights, glowing objects, sky and media, all pairs of paints, rays, bounce limits and resolutions of the random numbers", "why_tests_cant": "Relates the mean values of two renders of different scenes; single samples can get darker, because Russian roulette changes.", "anchors": ["src/bsdfs/*.cpp", "src/integrators/path_unidir.cpp: 28-145", "src/integrators/volpath.cpp: 26-209", "src/shaders/*.cpp"]}
{"id": "C205", "title": "Mean of Whitted samples", "statement": "In scenes without null surfaces where no surface shows more than L (its own light counted twice) and mirrors and glass reflect at most the share rho, the mean of what the Whitted integrator returns along a ray, over all sequences of random numbers 0, 1/N, ..., (N-1)/N and counting only samples that see at most n surfaces in a row, is what is seen over n surfaces, where every mirror shows its own light and 1/0.95 times what is reflected in the share p of the samples that goes on, and is short by at most n L q^n with q = p max(1, rho/0.95).  Allowing k more surfaces adds between 0 and L (s^n + ... + s^(n+k-1)) with s = p rho / 0.95.", "quantifier": "all scenes, rays, depths, resolutions of the random numbers, clocks and logs", "why_tests_cant": "A mean over all random streams of an unbounded recursion.", "anchors": ["src/integrators/whitted.cpp: 31-128"]}
{"id": "C206", "title": "Whitted samples end", "statement": "A Whitted sample along any ray ends after a bounded number of mirror bounces.", "quantifier": "all scenes and all sequences of random numbers", "why_tests_cant": "An unbounded recursion cannot be tested; a test that hits the endless branch is a crash of the stack.", "anchors": ["src/integrators/whitted.cpp: 31-128"]}
{"id": "C207", "title": "Mean and noise of ambient occlusion", "statement": "In scenes without null surfaces the mean of what the ambient occlusion integrator returns along a ray, over all sequences of random numbers 0, 1/N, ..., (N-1)/N, is the share of the directions above the surface that lead away from the scene, where a direction counts by its cosine; it is 0 where the ray hits nothing.  The mean of S samples of a pixel is off the mean share over the pixel by at most 1/(4 S) in mean square.  At the bottom of a crater whose rim covers the directions up to height h the share is 1 - h^2 up to 1/N.", "quantifier": "all scenes, rays, cameras, sample counts, resolutions of the random numbers, clocks and logs", "why_tests_cant": "A mean over all random streams; a test sees single samples that are 0 or 1.", "anchors": ["src/integrators/amb_occ.cpp: 33-77", "src/math/warp.cpp: 74-80"]}
{"id": "C208", "title": "The order of the lights does not matter", "statement": "If the lights of a scene are listed in another order, what the path, the Whitted and the volumetric path integrator return along a ray has the same distribution: the mean over all sequences of random numbers 0, 1/N, ..., (N-1)/N of every quantity with values between 0 and F that is computed from it is the same when the number of lights divides N (for the numbers k/2^23 of the sampler: 1, 2, 4, 8, ... lights), and otherwise differs by at most (N mod lights)/N F for every vertex that samples a light.  The same holds for everything that is computed from all samples of a pixel.", "quantifier": "all scenes, orders of the lights, rays, cameras, media, bounce limits, sample counts, resolutions of the random numbers, clocks, logs and bounded quantities", "why_tests_cant": "Relates the distributions of two renders; with one seed the two pictures differ in every noisy pixel.", "anchors": ["src/scene.cpp: 361-661", "src/integrators/path_unidir.cpp: 28-145", "src/integrators/whitted.cpp: 31-128", "src/integrators/volpath.cpp: 26-209"]}
{"id": "C209", "title": "Box queries mean what they are called", "statement": "contains() of a bounding box is true exactly for the points that keep some distance from everything outside the box, containsOrOnBoundry() for the points of the closed box; the centre is the point about which the box is symmetric, and the surface area is that of its six faces.", "quantifier": "all boxes and points", "why_tests_cant": "A test can only compare single points with single boxes; the boundary has no volume and is missed by random points.", "anchors": ["include/feign/math/bbox.h"]}
{"id": "C210", "title": "Timing records can be averaged", "statement": "Adding records of equal length to a first one and dividing by their number gives every clock the mean of its values and keeps the date of the first record; a record with fewer clocks is read beyond its end.", "quantifier": "all records, any number of them", "why_tests_cant": "All lengths and numbers of records; the read beyond the end is undefined behaviour and need not show.", "anchors": ["src/stats/clocker.cpp: 199-215"]}
{"id": "C211", "title": "The light of several lamps adds up", "statement": "In scenes without null surfaces whose lamps are point lights or meshes: the light that arrives along a ray with two lists of lamps lit, plus the light with no lamp lit, is the light with the first list lit plus the light with the second list lit, for every bounce limit - exactly when the numbers of lamps divide the number N of random numbers 0, 1/N, ..., (N-1)/N (so 1, 2, 4, 8, ... lamps with the numbers k/2^23 of the sampler), and up to n (N mod lamps)/N B otherwise.  A lamp never takes light away.  The means of the samples of the path integrator over all sequences of random numbers add up in the same way, within the bias of C203.", "quantifier": "all scenes of plain materials, lists of lamps, rays, bounce limits, channels, resolutions of the random numbers, clocks and logs", "why_tests_cant": "Relates the distributions of four renders; single renders differ by noise in every pixel, and lamps that are chosen with wrong weights only show in the means.", "anchors": ["src/scene.cpp: 361-661", "src/integrators/path_unidir.cpp: 28-145", "src/accel/light_naive.cpp: 20-34"]}
{"id": "C212", "title": "The work of a camera sample is bounded", "statement": "In scenes without null surfaces a sample of the path integrator with bounce limit n traces at most 2 n rays and draws at most 6 n random numbers (3 n rays when a light is a directional mesh), whatever the random numbers, the geometry, the materials and the lights are and whether or not it ends in an error; all m samples of a pixel at most 2 n m rays and (6 n + 2) m numbers.  Whitted's integrator traces one ray per mirror and one or two more, ambient occlusion two rays.", "quantifier": "all scenes, worlds (geometries and random generators with any state), rays, bounce limits, numbers of samples, clock states", "why_tests_cant": "A bound on all executions; a profile only shows the average of the scenes it was made for.", "anchors": ["src/integrators/path_unidir.cpp: 28-145", "src/integrators/whitted.cpp: 31-128", "src/integrators/amb_occ.cpp: 33-77", "src/scene.cpp: 445-535"]}
{"id": "C213", "title": "Black objects only take light away", "statement": "Add objects to a scene that are painted black (diffuse, albedo 0) and do not glow, anywhere between the others.  Then along every ray, for every bounce limit and colour channel, at most as much light arrives as before: they may hide the lamps, the sky and each other, but light never leaks around them and none is reflected by them.  The mean of the samples of the path integrator over all sequences of random numbers does not grow either, within the bias of C203.", "quantifier": "all scenes of plain materials without null surfaces whose lamps need no visibility test before they are sampled, all sets of black objects, rays, bounce limits, channels, resolutions of the random numbers, clocks and logs", "why_tests_cant": "Relates two renders with different geometry for every placement of the objects; single renders differ by noise.", "anchors": ["src/scene.cpp: 212-335, 445-535", "src/integrators/path_unidir.cpp: 28-145", "src/shaders/simple_material.cpp: 24-59", "src/bsdfs/diffuse.cpp: 20-49"]}
{"id": "C214", "title": "Objects that no ray meets do not change the picture", "statement": "Add objects of any material to a scene.  If no ray traced by a render of the scene without them - camera rays, bounces, shadow rays, rays through media - meets one of them first, the render with them gives bit for bit the same tile of the image, uses the same random numbers, stops its clocks in the same state and fails in the same way if it fails.  What is not looked at by a ray has no influence.", "quantifier": "all scenes, added objects, cameras, tiles, clocks, states of the random numbers; path, Whitted, volumetric path and ambient occlusion integrators", "why_tests_cant": "Quantifies over all geometry that is out of sight; a render that reads geometry behind the back of its rays looks plausible in every single image.", "anchors": ["src/integrators/integrator.cpp: 39-130", "src/integrators/path_unidir.cpp: 28-145", "src/integrators/whitted.cpp: 31-128", "src/integrators/volpath.cpp: 26-209", "src/integrators/amb_occ.cpp: 33-77", "src/scene.cpp: 181-335, 361-661"]}
{"id": "C215", "title": "Rays that leave a mesh do not meet the triangle they leave", "statement": "The position of a hit is computed in single precision and is off the triangle by the rounding; the ray that goes on from it starts at the distance Epsilon = 0.001 for this reason.  With vertices at most B away from the origin the position is finite and within 9 B / 2^24 of the true point of the triangle, for all vertices and barycentric coordinates, so that no ray meets the triangle it leaves beyond Epsilon if the cosine between it and the normal is more than 9 B / (2^24 Epsilon) - 2 degrees from the surface for B = 64, about 33 degrees for B = 1000.", "quantifier": "all triangles of floats, all barycentric coordinates with u, v in [0,1] and u + v <= 1 + 2^-20, all directions, all distances from Epsilon on", "why_tests_cant": "Rounding errors of all vertices and hit points; the worst case is met by few of them, as single dark pixels.", "anchors": ["src/shapes/objmesh.cpp: 416-431", "include/feign/common.h: 87", "include/feign/math/vector.h: 347-390", "src/integrators/path_unidir.cpp: 60-145"]}
{"id": "C216", "title": "The normals of mesh hits are unit vectors", "statement": "The geometric normal of a hit, computed in single precision from the edges of the triangle, is finite, of length one within 2^-20 and along the exact normal, for every triangle with edges between 2^-40 and 2^25 that is not a needle: the exact cross product of the edges must exceed 9 / 2^24 times the product of their sizes (plus 2^-50), however far from the origin the triangle is.  The shading normal is a unit vector along the interpolated normals within 2^-17 at every point of the triangle when the vertex normals are about one long and no two of them are more than 90 degrees apart.", "quantifier": "all triangles and vertex normals of floats, all barycentric coordinates with u + v <= 1 + 2^-20", "why_tests_cant": "Cancellation in cross products and interpolation over all triangles; a normal that is not a number appears only for special ones and then blackens or poisons pixels.", "anchors": ["src/shapes/objmesh.cpp: 416-460", "include/feign/math/vector.h: 356-363, 439-446, 540-563"]}
{"id": "C217", "title": "Objects the camera does not see never brighten an ambient occlusion picture", "statement": "Add solid objects to a scene, anywhere as long as no camera ray sees one of them as the first solid surface (surfaces without a material are looked through).  Then for the same random numbers no sample of an ambient occlusion render is brighter than it was without them, and the render uses exactly the same random numbers, so that no pixel gets brighter by noise either.", "quantifier": "all scenes, added objects, cameras, tiles, clocks, generators of random numbers, null surfaces between", "why_tests_cant": "Compares all samples of two renders for every geometry; a single picture cannot show that no light leaks.", "anchors": ["src/integrators/amb_occ.cpp: 33-77", "src/scene.cpp: 181-202", "src/integrators/integrator.cpp: 39-130"]}
{"id": "C218", "title": "The Henyey-Greenstein phase function is accurate in single precision", "statement": "The value that the phase function computes in floats is a number within two percent of the Henyey-Greenstein density, for every asymmetry g and every cosine of two unit vectors (up to 2^-20 for the rounding of their product), and so is the value that its sampling function returns with a direction.", "quantifier": "all floats g and cosines, all random numbers of [0,1)", "why_tests_cant": "The denominator cancels for directions near the peak; only some floats there give wrong, infinite or undefined values.", "anchors": ["include/feign/media/phase.h: 50-102", "include/feign/common.h: 94"]}
