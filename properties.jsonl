{"id": "C01", "title": "Distances are Euclidean distances of the two positions", "statement": "harmonica's Cartesian, spherical and geodetic `distance` between two points equals the straight-line Euclidean distance between their positions in 3D space; hence it is non-negative, symmetric, satisfies the triangle inequality and is invariant to adding whole turns to a longitude.", "quantifier": "every pair of points in each coordinate system, every ellipsoid with positive semi-major axis and eccentricity below one", "why_tests_cant": "An identity between two real-valued formulas over a continuum of points; tests sample a few pairs with a tolerance.", "anchors": ["src/harmonica/_forward/utils.py: distance, distance_cartesian, distance_spherical, distance_spherical_core, distance_geodetic, geodetic_distance_core"]}
{"id": "C02", "title": "Point-source fields superpose", "statement": "point_gravity evaluated on a union of point sources is the sum of the fields of the parts, is unchanged by reordering the sources, and scales linearly with the masses, for every field and both coordinate systems.", "quantifier": "every list of sources, masses and observation points, every supported field", "why_tests_cant": "Quantifies over all lists and orders of sources.", "anchors": ["src/harmonica/_forward/point.py: point_gravity, point_mass_cartesian, point_mass_spherical"]}
{"id": "C03", "title": "Point-source fields are the derivatives of the potential", "statement": "In Cartesian coordinates the g_e, g_n, g_z results of point_gravity are the easting, northing and (minus) upward derivatives of the potential in mGal, the tensor components are the second derivatives in Eotvos with g_z-type components sign-flipped, mixed components are symmetric, and g_ee+g_nn+g_zz=0 at every point off the sources.", "quantifier": "every set of masses and every observation point not on a source", "why_tests_cant": "Statement about derivatives at every point.", "anchors": ["src/harmonica/_forward/point.py: point_gravity, get_kernel, point_mass_cartesian"]}
{"id": "C04", "title": "Spherical point gravity is the radial derivative of the potential", "statement": "For spherical coordinates the potential is G m / distance and g_z equals minus the upward (radial) derivative of the potential times 1e5; requesting g_n or g_e is always rejected with an error and never returns numbers.", "quantifier": "every source and observation point off the sources", "why_tests_cant": "Derivative identity over a continuum.", "anchors": ["src/harmonica/_forward/point.py: potential_spherical, gravity_u_spherical, get_kernel, point_mass_spherical"]}
{"id": "C05", "title": "Parallel execution is schedule independent", "statement": "For every interleaving of the per-iteration floating-point updates performed by a parallel loop over observation points, the output arrays are bit-for-bit the ones of the serial loop (so parallel=True and parallel=False agree), without assuming that floating-point addition is associative or commutative.", "quantifier": "every number of threads and every interleaving of their updates, every number system", "why_tests_cant": "The number of schedules is unbounded and tests only see the ones the machine chose.", "anchors": ["src/harmonica/_forward/point.py: point_mass_cartesian, point_mass_spherical", "src/harmonica/_forward/prisms/gravity.py: jit_prism_gravity", "src/harmonica/_equivalent_sources/utils.py: predict, jacobian", "src/harmonica/_forward/tesseroid_gravity.py: jit_tesseroid_gravity"]}
{"id": "C06", "title": "Observation coordinates of broadcastable shapes give the broadcast result", "statement": "When the observation coordinates are arrays that numpy can broadcast together, the forward functions either return the field on the broadcast points or reject the call; they never read outside an array nor leave output entries uncomputed.", "quantifier": "every triple of broadcastable coordinate shapes", "why_tests_cant": "Ranges over all shapes; out-of-bounds reads are silent.", "anchors": ["src/harmonica/_forward/point.py: point_gravity", "src/harmonica/_forward/prisms/gravity.py: prism_gravity", "src/harmonica/_forward/tesseroid_gravity.py: tesseroid_gravity", "src/harmonica/_forward/dipole.py: dipole_magnetic"]}
{"id": "C07", "title": "Sanity checks of point_gravity are complete", "statement": "point_gravity rejects every unknown coordinate system, every unknown field and every mass array whose size differs from the number of points, and otherwise computes one value per observation point using only the masses given.", "quantifier": "every argument combination", "why_tests_cant": "Completeness of a check over all inputs.", "anchors": ["src/harmonica/_forward/point.py: point_gravity, get_kernel", "src/harmonica/_forward/utils.py: check_coordinate_system"]}
{"id": "C08", "title": "Tesseroid validation accepts exactly well-formed tesseroids", "statement": "tesseroid_gravity accepts a set of tesseroids exactly when, after moving the rows with west>east to [-180,180), all latitudes are in [-90,90], south<=north, 0<=bottom<=top, longitudes in [-180,360], west<=east and no tesseroid is wider than one turn; otherwise it raises ValueError.", "quantifier": "every list of tesseroids", "why_tests_cant": "An if-and-only-if over all real boundaries.", "anchors": ["src/harmonica/_forward/_tesseroid_utils.py: _check_tesseroids, _longitude_continuity"]}
{"id": "C09", "title": "Longitude normalisation keeps the meridians", "statement": "Moving a tesseroid's longitudes to the other convention changes each of its boundary longitudes by a whole number of turns and leaves other boundaries and other tesseroids untouched, and a tesseroid accepted by the checks still spans the angular region the user gave.", "quantifier": "every list of tesseroids", "why_tests_cant": "Modular arithmetic over all reals.", "anchors": ["src/harmonica/_forward/_tesseroid_utils.py: _longitude_continuity"]}
{"id": "C10", "title": "Points inside a tesseroid are always rejected", "statement": "A computation point strictly inside a tesseroid - its longitude taken modulo whole turns - always raises an error, and a point that is in none of them never does.", "quantifier": "every valid list of tesseroids and every list of points, longitudes in any convention", "why_tests_cant": "Needs every integer number of turns and every boundary position.", "anchors": ["src/harmonica/_forward/_tesseroid_utils.py: check_points_outside_tesseroids, _check_points_outside_tesseroids"]}
{"id": "C11", "title": "Adaptive discretisation tiles the tesseroid", "statement": "The small tesseroids produced by the adaptive discretisation cover every point of the original tesseroid, stay inside it, have pairwise disjoint interiors, and their volumes (hence masses) add up to the original one.", "quantifier": "every tesseroid, observation point and distance-size ratio for which the discretisation returns", "why_tests_cant": "The recursion depth and the shape of the subdivision are unbounded.", "anchors": ["src/harmonica/_forward/_tesseroid_utils.py: _adaptive_discretization, _split_tesseroid"]}
{"id": "C12", "title": "Adaptive discretisation meets the distance-size criterion", "statement": "Every small tesseroid returned has longitudinal and latitudinal great-circle sizes at its top (and radial size when radial discretisation is on) no larger than the distance of its centre to the point divided by the ratio; with radial discretisation off the radial boundaries are never changed.", "quantifier": "every tesseroid, point and ratio", "why_tests_cant": "Holds for every leaf of every subdivision.", "anchors": ["src/harmonica/_forward/_tesseroid_utils.py: _adaptive_discretization, _tesseroid_dimensions, _distance_tesseroid_point"]}
{"id": "C13", "title": "Adaptive discretisation terminates within its buffers or reports overflow", "statement": "For every input - also points on or inside the tesseroid - the discretisation loop ends after a bounded number of iterations, never indexes outside the stack or output buffers, and if the buffers are too small it raises OverflowError instead of returning an incomplete set.", "quantifier": "every tesseroid, point, ratio and buffer size", "why_tests_cant": "Termination and absence of out-of-bounds access for all inputs.", "anchors": ["src/harmonica/_forward/_tesseroid_utils.py: _adaptive_discretization", "src/harmonica/_forward/tesseroid_gravity.py: jit_tesseroid_gravity"]}
{"id": "C14", "title": "Gauss-Legendre point masses sit inside the tesseroid and carry its radial mass exactly", "statement": "The order-2 quadrature replaces a tesseroid by eight point masses located strictly inside it, whose total mass is linear in density, positive for positive density, and exact in longitude and radius: it equals the exact mass with the latitude integral of the cosine replaced by its 2-point rule.", "quantifier": "every tesseroid and density", "why_tests_cant": "Identity over all boundaries.", "anchors": ["src/harmonica/_forward/_tesseroid_utils.py: gauss_legendre_quadrature, glq_nodes_weights"]}
{"id": "C15", "title": "Tesseroid fields superpose", "statement": "tesseroid_gravity of a union of tesseroids is the sum of the fields of its parts; it is linear in the densities; and dropping tesseroids with zero volume or zero density never changes the result.", "quantifier": "every list of valid tesseroids", "why_tests_cant": "Quantifies over all lists.", "anchors": ["src/harmonica/_forward/tesseroid_gravity.py: tesseroid_gravity, jit_tesseroid_gravity", "src/harmonica/_forward/_tesseroid_utils.py: _discard_null_tesseroids"]}
{"id": "C16", "title": "Density-based radial discretisation tiles the tesseroid", "statement": "When the density is a function of radius the tesseroid is split only radially, consecutive pieces share a boundary, the pieces span exactly bottom..top, and every piece satisfies the maximum-difference criterion.", "quantifier": "every tesseroid, every density function, every behaviour of the external optimiser for which the loop ends", "why_tests_cant": "Unbounded number of splits and arbitrary density functions.", "anchors": ["src/harmonica/_forward/_tesseroid_variable_density.py: density_based_discretization, _density_based_discretization, density_minmax, maximum_absolute_diff"]}
{"id": "C17", "title": "A constant density function gives the constant-density result", "statement": "Passing a density function that returns a constant gives the same field as passing that constant.", "quantifier": "every tesseroid and observation point", "why_tests_cant": "Equality of two different code paths for all inputs.", "anchors": ["src/harmonica/_forward/_tesseroid_variable_density.py: gauss_legendre_quadrature_variable_density, density_based_discretization", "src/harmonica/_forward/tesseroid_gravity.py: jit_tesseroid_gravity_variable_density"]}
{"id": "C18", "title": "Layers are gap-free tilings", "statement": "The prisms (tesseroids) of a layer have pairwise disjoint horizontal interiors, neighbours share their boundary exactly, the union is the rectangle given by `boundaries`, and each cell is centred on its grid node.", "quantifier": "every layer with evenly spaced coordinates, any number of cells", "why_tests_cant": "All layer sizes and spacings.", "anchors": ["src/harmonica/_forward/prisms/layer.py: DatasetAccessorPrismLayer", "src/harmonica/_forward/tesseroid_layer.py: DatasetAccessorTesseroidLayer"]}
{"id": "C19", "title": "Layer top and bottom follow surface and reference", "statement": "After building a layer or calling update_top_bottom, every cell has top = max(surface, reference) and bottom = min(surface, reference), in particular bottom <= top, for scalar or array references.", "quantifier": "every surface and reference array, of any numeric type", "why_tests_cant": "Quantifies over all arrays and dtypes.", "anchors": ["src/harmonica/_forward/prisms/layer.py: update_top_bottom", "src/harmonica/_forward/tesseroid_layer.py: update_top_bottom"]}
{"id": "C20", "title": "Tesseroid layer overlap check is exact", "statement": "tesseroid_layer raises an error exactly for the longitude grids whose cells overlap around the globe.", "quantifier": "every evenly spaced longitude array", "why_tests_cant": "An if-and-only-if over all grids.", "anchors": ["src/harmonica/_forward/tesseroid_layer.py: _check_overlap, tesseroid_layer"]}
{"id": "C21", "title": "Layer gravity equals the gravity of its explicit prisms", "statement": "prism_layer.gravity is the sum of the prism kernel over exactly the cells with non-NaN top, bottom and density, non-zero density and at least the thickness threshold, and get_prism(i,j) is the prism used for cell (i,j).", "quantifier": "every layer and threshold", "why_tests_cant": "All grid sizes and NaN patterns.", "anchors": ["src/harmonica/_forward/prisms/layer.py: gravity, _forward_gravity_prism_layer, get_prism, _to_prisms"]}
{"id": "C22", "title": "Tesseroid layer gravity uses exactly the valid cells", "statement": "tesseroid_layer.gravity evaluates tesseroid_gravity on exactly the tesseroids with non-NaN top, bottom and density that are not thinner than the threshold, each with its own density.", "quantifier": "every layer and NaN pattern", "why_tests_cant": "All grid sizes and NaN patterns.", "anchors": ["src/harmonica/_forward/tesseroid_layer.py: gravity, _get_nonans_mask, _to_tesseroids, _discard_thin_tesseroids"]}
{"id": "C23", "title": "Prism validation accepts exactly well-formed prisms", "statement": "prism functions raise ValueError exactly when some prism has west>east, south>north or bottom>top.", "quantifier": "every list of prisms", "why_tests_cant": "If-and-only-if over all lists.", "anchors": ["src/harmonica/_forward/prisms/utils.py: check_prisms", "src/harmonica/_forward/prisms/gravity.py: prism_gravity", "src/harmonica/_forward/prisms/magnetic.py: prism_magnetic"]}
{"id": "C24", "title": "Singular-point warnings are exact", "statement": "prism_gravity warns for a tensor component exactly when some observation point lies on an edge or vertex where that component is singular: the edges perpendicular to the direction of a diagonal component, the edges perpendicular to both directions of a non-diagonal one.", "quantifier": "every set of prisms, points and every tensor component", "why_tests_cant": "Equivalence over a continuum of positions.", "anchors": ["src/harmonica/_forward/prisms/gravity.py: _check_singular_points and helpers"]}
{"id": "C25", "title": "Discarding null prisms changes nothing", "statement": "The gravity and magnetic functions drop a prism only if it has zero volume or zero density/magnetisation; the others are kept once, in order, with their own properties, so the result is the sum over all prisms whenever a null prism has zero field.", "quantifier": "every list of prisms", "why_tests_cant": "All lists.", "anchors": ["src/harmonica/_forward/prisms/gravity.py: _discard_null_prisms", "src/harmonica/_forward/prisms/magnetic.py: _discard_null_prisms"]}
{"id": "C26", "title": "Prism gravity superposes and scales", "statement": "prism_gravity is additive over lists of prisms, invariant under their permutation and linear in density, with the documented sign flips and unit factors for each field.", "quantifier": "every list of prisms and points, every field", "why_tests_cant": "All lists and orders.", "anchors": ["src/harmonica/_forward/prisms/gravity.py: prism_gravity, jit_prism_gravity"]}
{"id": "C27", "title": "Vector magnetic field equals its three components", "statement": "Asking prism_magnetic or dipole_magnetic for the field 'b' returns exactly the three arrays that asking for b_e, b_n and b_u separately returns; both are linear in the magnetisation/moment.", "quantifier": "every list of sources and points", "why_tests_cant": "Equality of separate code paths on all inputs.", "anchors": ["src/harmonica/_forward/prisms/magnetic.py: prism_magnetic", "src/harmonica/_forward/dipole.py: dipole_magnetic"]}
{"id": "C28", "title": "Prism to VTK vertices", "statement": "The eight vertices exported for each prism are its eight corners, each exactly once, in VTK hexahedron order, prism by prism.", "quantifier": "every array of prisms", "why_tests_cant": "All lists of prisms.", "anchors": ["src/harmonica/visualization/_prism.py: _prisms_boundaries_to_vertices"]}
{"id": "C29", "title": "Ellipsoid rotations are rigid and sort the axes", "statement": "The rotation matrix of any yaw, pitch, roll is orthogonal with determinant one, positive pitch lifts the easting axis, and the extra semi-axes rotation maps the sorted axes onto the ellipsoid's own axes, so a point is inside the ellipsoid in one frame exactly when it is in the other.", "quantifier": "every angle triple and all orderings (with ties) of the semi-axes", "why_tests_cant": "All real angles and axes.", "anchors": ["src/harmonica/_forward/utils.py: get_rotation_matrix", "src/harmonica/_forward/ellipsoids/utils.py: get_semiaxes_rotation_matrix, is_internal", "src/harmonica/_forward/ellipsoids/ellipsoids.py: Ellipsoid"]}
{"id": "C30", "title": "Lambda is the confocal coordinate", "statement": "For every external point calculate_lambda returns the unique lambda >= 0 for which the point lies on the confocal ellipsoid with squared semi-axes a^2+lambda, b^2+lambda, c^2+lambda (zero on the surface), for prolate, oblate and triaxial ellipsoids.", "quantifier": "every ellipsoid and external point", "why_tests_cant": "Root of a cubic for a continuum of inputs.", "anchors": ["src/harmonica/_forward/ellipsoids/utils.py: calculate_lambda"]}
{"id": "C31", "title": "Elliptical integrals are the stated integrals", "statement": "The closed forms used for prolate, oblate and triaxial ellipsoids equal the documented improper integrals A, B, C from lambda to infinity, and the derivative function returns their derivatives.", "quantifier": "every ellipsoid of that type and lambda >= 0", "why_tests_cant": "Integral identities over a continuum.", "anchors": ["src/harmonica/_forward/ellipsoids/utils.py: get_elliptical_integrals, get_derivatives_of_elliptical_integrals"]}
{"id": "C32", "title": "Ellipsoid gravity satisfies Poisson's equation and is continuous", "statement": "Inside the ellipsoid the acceleration is linear with divergence -4 pi G rho; it is continuous across the surface; and on a sphere it is the field of a point mass outside.", "quantifier": "every ellipsoid, density and point", "why_tests_cant": "Differential statement at every point.", "anchors": ["src/harmonica/_forward/ellipsoids/gravity.py: ellipsoid_gravity, _compute_gravity_ellipsoid"]}
{"id": "C33", "title": "Demagnetisation tensors have the required invariants", "statement": "The internal demagnetisation factors are positive, sum to one and equal abc/2 times the elliptical integrals at zero; the external tensor is symmetric and traceless.", "quantifier": "every ellipsoid and external point", "why_tests_cant": "Identity over a continuum.", "anchors": ["src/harmonica/_forward/ellipsoids/magnetic.py: get_demagnetization_tensor_internal, get_demagnetization_tensor_external, _spatial_deriv_lambda"]}
{"id": "C34", "title": "Ellipsoid magnetisation solves the self-consistent equation", "statement": "The magnetisation used satisfies M = chi (H0 - N M) + Mr, for isotropic and anisotropic susceptibility.", "quantifier": "every susceptibility tensor, inducing field and remanence with a solvable system", "why_tests_cant": "All matrices; tests use isotropic or diagonal tensors where the order of a matrix product does not matter.", "anchors": ["src/harmonica/_forward/ellipsoids/magnetic.py: get_magnetisation"]}
{"id": "C35", "title": "Ellipsoid objects keep positive semi-axes", "statement": "After any sequence of constructor and attribute assignments, including failed ones, an Ellipsoid has positive semi-axes and well-typed physical properties, and a failed assignment leaves the object unchanged.", "quantifier": "every history of assignments", "why_tests_cant": "All histories.", "anchors": ["src/harmonica/_forward/ellipsoids/ellipsoids.py: Ellipsoid"]}
{"id": "C36", "title": "Ellipsoid fields superpose and skip bodies without properties", "statement": "ellipsoid_gravity of a list is the sum over its members that have a density; ellipsoids without density contribute nothing; order is irrelevant; get_surface returns points on the body's surface.", "quantifier": "every list of ellipsoids", "why_tests_cant": "All lists.", "anchors": ["src/harmonica/_forward/ellipsoids/gravity.py: ellipsoid_gravity", "src/harmonica/_forward/ellipsoids/ellipsoids.py: get_surface"]}
{"id": "C37", "title": "Magnetic angles and vectors convert back and forth", "statement": "magnetic_vec_to_angles(magnetic_angles_to_vec(i,d,D)) returns (i,d,D) for positive intensity, |D|<90 and d in (-180,180]; magnetic_angles_to_vec after magnetic_vec_to_angles returns any non-zero vector; the Euclidean norm equals the intensity.", "quantifier": "every vector and every angle pair", "why_tests_cant": "Round trip over a continuum with branch cuts.", "anchors": ["src/harmonica/_utils.py: magnetic_angles_to_vec, magnetic_vec_to_angles"]}
{"id": "C38", "title": "Total field anomaly is the projection on the field direction", "statement": "total_field_anomaly is linear in the anomalous field, equals its dot product with the unit vector of the given inclination and declination and never exceeds its magnitude.", "quantifier": "every field and direction", "why_tests_cant": "Inequality over a continuum.", "anchors": ["src/harmonica/_utils.py: total_field_anomaly"]}
{"id": "C39", "title": "Low-pass and high-pass filters are complementary", "statement": "At every wavenumber the Gaussian low-pass and high-pass responses lie in [0,1] and add to one, so the two filtered grids add to the original grid.", "quantifier": "every wavelength and wavenumber, every grid", "why_tests_cant": "All frequencies and grids.", "anchors": ["src/harmonica/filters/_filters.py: gaussian_lowpass_kernel, gaussian_highpass_kernel", "src/harmonica/_transformations.py: gaussian_lowpass, gaussian_highpass"]}
{"id": "C40", "title": "Upward continuation composes", "statement": "Continuing by h1 then h2 equals continuing by h1+h2, continuing by 0 is the identity, and for h>0 no wavenumber is amplified.", "quantifier": "every wavenumber and displacement", "why_tests_cant": "All frequencies.", "anchors": ["src/harmonica/filters/_filters.py: upward_continuation_kernel"]}
{"id": "C41", "title": "Derivative filters are consistent with a harmonic field", "statement": "Derivative filters of order m then n compose to order m+n; the second derivatives along easting, northing and upward add to zero; the upward derivative is the rate of change of upward continuation.", "quantifier": "every wavenumber and order", "why_tests_cant": "All frequencies and orders.", "anchors": ["src/harmonica/filters/_filters.py: derivative_upward_kernel, derivative_easting_kernel, derivative_northing_kernel"]}
{"id": "C42", "title": "Filtering a real grid loses nothing when taking the real part", "statement": "Every filter response is conjugate symmetric under k -> -k, so filtering a real grid gives a purely real result and discarding the imaginary part is harmless.", "quantifier": "every real grid of any size and every filter", "why_tests_cant": "All grids and frequencies.", "anchors": ["src/harmonica/filters/_utils.py: apply_filter", "src/harmonica/filters/_filters.py"]}
{"id": "C43", "title": "Reduction to the pole", "statement": "At the pole (inclination 90, vertical magnetisation) reduction to the pole is the identity except for the mean, its response is the reciprocal of the product of the field and magnetisation direction factors, and leaving the magnetisation angles out uses the field's angles.", "quantifier": "every wavenumber and direction", "why_tests_cant": "All frequencies and angles.", "anchors": ["src/harmonica/filters/_filters.py: reduction_to_pole_kernel", "src/harmonica/_transformations.py: reduction_to_pole"]}
{"id": "C44", "title": "Grid transformations keep the caller's data and metadata", "statement": "apply_filter returns a grid with the coordinates of the input, accepts exactly evenly spaced 2-D grids without missing values, and leaves the caller's arguments unchanged.", "quantifier": "every grid and padding option, every sequence of calls", "why_tests_cant": "Call histories and all grids.", "anchors": ["src/harmonica/filters/_utils.py: apply_filter, grid_sanity_checks"]}
{"id": "C45", "title": "Total gradient amplitude and tilt angle", "statement": "The total gradient amplitude is the Euclidean norm of the three derivative grids; the tilt angle lies in [-pi/2, pi/2] and its tangent is vertical over horizontal derivative wherever the latter is non-zero.", "quantifier": "every grid point value", "why_tests_cant": "All values.", "anchors": ["src/harmonica/_transformations.py: total_gradient_amplitude, tilt_angle"]}
{"id": "C46", "title": "Bouguer correction is the infinite slab attraction", "statement": "bouguer_correction is 2 pi G times density contrast times topography in mGal, with crust density above and the water-crust contrast below the ellipsoid; it is continuous, has the sign of the contrast times height, and is piecewise linear.", "quantifier": "every topography value and densities", "why_tests_cant": "All real values including the sign change.", "anchors": ["src/harmonica/_gravity_corrections.py: bouguer_correction"]}
{"id": "C47", "title": "Airy isostasy balances the columns", "statement": "The Moho depth of isostatic_moho_airy makes the mass per unit area of every column equal to that of the reference column, for every number of layers.", "quantifier": "every basement, layer thicknesses and densities with distinct crust and mantle densities", "why_tests_cant": "All inputs and layer counts.", "anchors": ["src/harmonica/_isostasy.py: isostatic_moho_airy"]}
{"id": "C48", "title": "Euler deconvolution recovers the source", "statement": "If the data satisfy Euler's homogeneity equation exactly for some source position and base level and the normal matrix is invertible, EulerDeconvolution.fit returns exactly that position and base level; in general its estimate minimises the squared misfit.", "quantifier": "every data set, any number of points", "why_tests_cant": "All data sets.", "anchors": ["src/harmonica/_euler_methods.py: EulerDeconvolution.fit"]}
{"id": "C49", "title": "Euler inversion keeps the best structural index", "statement": "Given several structural indices EulerInversion keeps the first with the smallest data misfit and all reported attributes belong to that solution; rejected inputs raise errors.", "quantifier": "every list of structural indices and data", "why_tests_cant": "All lists.", "anchors": ["src/harmonica/_euler_methods.py: EulerInversion.fit, _fit"]}
{"id": "C50", "title": "Oasis Montaj header decoding is faithful", "statement": "Reading a header written according to the documented byte layout gives back every field; load_oasis_montaj_grid rejects files with unknown element size, ordering or sign flag instead of misreading them.", "quantifier": "every header", "why_tests_cant": "All byte strings.", "anchors": ["src/harmonica/_io/oasis_montaj_grd.py: _read_header, _check_ordering, _check_sign_flag, _get_data_type"]}
{"id": "C51", "title": "Oasis Montaj values end at the right node", "statement": "Element k of the file is at the documented grid node for both orderings; dummies (and only dummies) become NaN; other values are value/factor+base.", "quantifier": "every grid shape and content", "why_tests_cant": "All shapes and contents.", "anchors": ["src/harmonica/_io/oasis_montaj_grd.py: load_oasis_montaj_grid, _remove_dummies, _build_coordinates"]}
{"id": "C52", "title": "Compressed Oasis grids decompress to the original", "statement": "Decompressing a block-compressed grid returns the concatenation of the blocks for any number of blocks and any sizes.", "quantifier": "every list of blocks", "why_tests_cant": "All block structures.", "anchors": ["src/harmonica/_io/oasis_montaj_grd.py: _decompress_grid"]}
{"id": "C53", "title": "Rotated Oasis grids keep their geometry", "statement": "The rotated coordinates keep the origin at the grid corner and all pairwise distances of the unrotated grid, and the inverse rotation recovers the regular coordinates.", "quantifier": "every rotation and grid", "why_tests_cant": "All angles.", "anchors": ["src/harmonica/_io/oasis_montaj_grd.py: _build_rotated_coordinates"]}
{"id": "C54", "title": "ICGEM grids are read with the right orientation", "statement": "load_icgem_gdf puts every value of the file at its own latitude and longitude with south-to-north latitude, and rejects files whose header and data disagree in shape or area.", "quantifier": "every grid file", "why_tests_cant": "All files.", "anchors": ["src/harmonica/_io/icgem_gdf.py: load_icgem_gdf, _read_gdf_file, _check_gdf_integrity"]}
{"id": "C55", "title": "Legendre recursions compute the associated Legendre functions", "statement": "For every maximum degree the tables contain exactly the associated Legendre functions; Schmidt and full tables are those times the documented normalisation factors, for every degree and order.", "quantifier": "every degree, order and argument in [-1,1]", "why_tests_cant": "Unbounded degrees.", "anchors": ["src/harmonica/_spherical_harmonics/legendre.py"]}
{"id": "C56", "title": "Legendre derivative tables are derivatives", "statement": "The derivative tables hold the derivatives of the functions with respect to colatitude for every degree and order, and can be applied again to get higher derivatives.", "quantifier": "every degree, order and colatitude", "why_tests_cant": "Unbounded degrees.", "anchors": ["src/harmonica/_spherical_harmonics/legendre.py"]}
{"id": "C57", "title": "Schmidt functions are bounded", "statement": "The squares of the Schmidt functions of one degree add to one at every point, so none exceeds one in absolute value.", "quantifier": "every degree and argument", "why_tests_cant": "Unbounded degrees.", "anchors": ["src/harmonica/_spherical_harmonics/legendre.py: associated_legendre_schmidt"]}
{"id": "C58", "title": "IGRF coefficients are interpolated in time", "statement": "Coefficients equal the tabulated ones on the epoch dates, vary linearly in between, are continuous over the whole valid time range, and dates outside it are rejected.", "quantifier": "every date", "why_tests_cant": "All dates.", "anchors": ["src/harmonica/_spherical_harmonics/igrf.py: interpolate_coefficients"]}
{"id": "C59", "title": "IGRF field is the gradient of a potential", "statement": "The components computed by the spherical harmonic synthesis are minus the gradient of the documented potential off the poles, for every degree range; predict and grid agree; the rotation to geodetic preserves the magnitude.", "quantifier": "every coefficient set, degree range and point", "why_tests_cant": "All coefficient sets and points.", "anchors": ["src/harmonica/_spherical_harmonics/igrf.py: spherical_harmonics_magnetic_field, spherical_harmonics_magnetic_field_grid, vector_spherical_to_geodetic"]}
{"id": "C60", "title": "IGRF field is continuous at the poles", "statement": "Along every meridian minus the gradient of the potential tends to the vector returned at the pole, so the vector there does not depend on the longitude requested.", "quantifier": "every coefficient set and meridian", "why_tests_cant": "Limit statement.", "anchors": ["src/harmonica/_spherical_harmonics/igrf.py: spherical_harmonics_magnetic_field"]}
{"id": "C61", "title": "Equivalent-source prediction is the Jacobian times the coefficients", "statement": "predict at the data points equals jacobian times coefs_, the prediction is a sum of coefficient over distance, and fit minimises the damped weighted misfit, reproducing the data when an exact fit exists and there is no damping.", "quantifier": "every data set and source layout", "why_tests_cant": "All data sets.", "anchors": ["src/harmonica/_equivalent_sources/cartesian.py: EquivalentSources", "src/harmonica/_equivalent_sources/spherical.py: EquivalentSourcesSph", "src/harmonica/_equivalent_sources/utils.py"]}
{"id": "C62", "title": "Equivalent sources are placed as documented", "statement": "Without custom points each source lies below its (block-averaged) data point by depth; with custom points those are used unchanged; a zero depth is rejected.", "quantifier": "every data set and option", "why_tests_cant": "All inputs.", "anchors": ["src/harmonica/_equivalent_sources/cartesian.py: EquivalentSources._build_points, fit"]}
{"id": "C63", "title": "Memory estimate equals the Jacobian fit allocates", "statement": "estimate_required_memory returns the size in bytes of the largest Jacobian that fit would allocate with the same settings.", "quantifier": "every data set and option, including custom points", "why_tests_cant": "All option combinations.", "anchors": ["src/harmonica/_equivalent_sources/cartesian.py: estimate_required_memory", "src/harmonica/_equivalent_sources/gradient_boosted.py: estimate_required_memory", "src/harmonica/_equivalent_sources/spherical.py: estimate_required_memory"]}
{"id": "C64", "title": "Gradient boosting keeps residual and coefficients consistent", "statement": "After every window, for every order of the windows, the residue equals the data minus the prediction of the accumulated coefficients and the reported RMSE is the RMS of that residue; with a single window the result is the one of the plain fit.", "quantifier": "every window list and order", "why_tests_cant": "All shuffles and window structures.", "anchors": ["src/harmonica/_equivalent_sources/gradient_boosted.py: _gradient_boosting, _create_windows"]}
{"id": "C65", "title": "Spherical equivalent-source predictions do not depend on the integer or float type of the coordinates", "statement": "EquivalentSourcesSph.predict returns the same values for numerically equal coordinates given as integers or floats.", "quantifier": "every fitted estimator and coordinates", "why_tests_cant": "All dtypes and estimators.", "anchors": ["src/harmonica/_equivalent_sources/spherical.py: EquivalentSourcesSph.predict"]}
{"id": "C66", "title": "The distance-size criterion bounds the real extent of the pieces", "statement": "In every tesseroid returned by the adaptive discretisation the extent along its middle parallel, times the distance-size ratio, is at most pi/2 times its distance to the point.", "quantifier": "every tesseroid accepted by the checks, every point, ratio and buffer", "why_tests_cant": "Needs all widths up to a full turn; tests use narrow tesseroids.", "anchors": ["src/harmonica/_forward/tesseroid_gravity.py: _adaptive_discretization", "src/harmonica/_forward/_tesseroid_utils.py: tesseroid_dimensions"]}
{"id": "C67", "title": "Accepted tesseroids can be computed", "statement": "For every tesseroid that passes the checks and every point outside it tesseroid_gravity returns a value or reports OverflowError; no other error occurs.", "quantifier": "every accepted tesseroid and every outside point", "why_tests_cant": "All accepted boundaries, including whole parallels.", "anchors": ["src/harmonica/_forward/tesseroid_gravity.py: tesseroid_gravity", "src/harmonica/_forward/_tesseroid_utils.py: tesseroid_dimensions"]}
{"id": "C68", "title": "Tesseroids with NaN boundaries are rejected", "statement": "A tesseroid with a NaN boundary raises ValueError.", "quantifier": "every tesseroid with some NaN boundary", "why_tests_cant": "All placements of NaN.", "anchors": ["src/harmonica/_forward/_tesseroid_utils.py: _check_tesseroids"]}
{"id": "C69", "title": "Eastward arcs across either convention's seam are accepted", "statement": "A tesseroid with valid latitudes and radii whose longitudes describe an eastward arc from west to east is accepted, whichever meridian it crosses.", "quantifier": "every pair of longitudes in [-180, 360]", "why_tests_cant": "All pairs of longitudes.", "anchors": ["src/harmonica/_forward/_tesseroid_utils.py: _check_tesseroids, _longitude_continuity"]}
{"id": "C70", "title": "Tesseroids with a density function: field of point masses", "statement": "With a density that is a function of the radius, the returned field is the field of point masses located inside small tesseroids that tile the (normalised) tesseroids; every mass is the density at its own radius times the quadrature volume at that point.", "quantifier": "every density function, every behaviour of the external optimiser, every number of tesseroids and points", "why_tests_cant": "Arbitrary functions and unbounded discretisations.", "anchors": ["src/harmonica/_forward/_tesseroid_variable_density.py: gauss_legendre_quadrature_variable_density", "src/harmonica/_forward/tesseroid_gravity.py: jit_tesseroid_gravity_variable_density"]}
{"id": "C71", "title": "Dipole fields are minus the gradient of the magnetic potential and have no divergence", "statement": "The components returned by dipole_magnetic are minus the derivatives of the sum of the dipoles' scalar potentials (in nT) and their divergence is zero at every point off the dipoles.", "quantifier": "every list of dipoles and moments, every point off the dipoles", "why_tests_cant": "A statement about derivatives at all points.", "anchors": ["src/harmonica/_forward/dipole.py: dipole_magnetic, _jit_dipole_magnetic_field_cartesian"]}
{"id": "C72", "title": "Cutting a prism in two does not change the field", "statement": "Replacing one prism of a set by the two halves obtained by cutting it with a plane normal to an axis (same density) leaves the potential and the accelerations unchanged at every point.", "quantifier": "every set of prisms, every cut, every observation point", "why_tests_cant": "All sets, cuts and points.", "anchors": ["src/harmonica/_forward/prisms/gravity.py: prism_gravity, jit_prism_gravity"]}
{"id": "C73", "title": "Source arrays of inconsistent lengths are rejected", "statement": "prism_gravity and dipole_magnetic reject calls whose source arrays (densities, positions, moments) have different lengths instead of reading outside an array.", "quantifier": "every combination of array lengths", "why_tests_cant": "All combinations of lengths.", "anchors": ["src/harmonica/_forward/prisms/gravity.py: prism_gravity", "src/harmonica/_forward/dipole.py: dipole_magnetic, _check_dipoles_and_magnetic_moments"]}
{"id": "C74", "title": "Prisms with NaN boundaries are rejected", "statement": "A prism with a NaN boundary raises ValueError.", "quantifier": "every prism with some NaN boundary", "why_tests_cant": "All placements of NaN.", "anchors": ["src/harmonica/_forward/prisms/utils.py: check_prisms"]}
{"id": "C75", "title": "Exporting a layer keeps every cell's own properties", "statement": "to_pyvista hands over exactly the non-null cells of the layer (all cells when drop_null_prisms is False), in order, each with its own boundaries and its own value of every data variable.", "quantifier": "every layer, NaN pattern and number of data variables", "why_tests_cant": "All grids and NaN patterns.", "anchors": ["src/harmonica/_forward/prisms/layer.py: to_pyvista, _to_prisms"]}
{"id": "C76", "title": "Finite-difference derivatives", "statement": "The finite-difference derivative along easting or northing is exact on planes everywhere and on quadratics at interior nodes, for evenly or unevenly spaced increasing coordinates, uses the secant on the border, depends only on the neighbouring nodes, and rejects unknown methods, single nodes and ambiguous coordinates.", "quantifier": "every grid size, spacing and polynomial", "why_tests_cant": "All spacings and polynomial coefficients.", "anchors": ["src/harmonica/_transformations.py: derivative_easting, derivative_northing, _get_dataarray_coordinate"]}
{"id": "C77", "title": "Iterations of the Euler inversion are optimal steps", "statement": "Every iteration of EulerInversion moves parameters and predicted data so that the linearised Euler equations hold exactly, with the least weighted sum of squared residuals among all such moves; the merit function is the documented one.", "quantifier": "every data set, weights, current parameters and predicted data", "why_tests_cant": "Optimality over all steps cannot be tested.", "anchors": ["src/harmonica/_euler_methods.py: EulerInversion._newton_step, _fit"]}
{"id": "C78", "title": "IGRF coefficient file is read faithfully", "statement": "load_igrf stores every value of the file under its kind, degree, order and epoch, stores the secular variations, and leaves zero where the file has no line.", "quantifier": "every coefficient file with distinct coefficients", "why_tests_cant": "All files.", "anchors": ["src/harmonica/_spherical_harmonics/igrf.py: load_igrf"]}
{"id": "C79", "title": "Estimating memory does not change a fitted estimator", "statement": "Calling estimate_required_memory on a fitted estimator leaves its predictions unchanged.", "quantifier": "every fitted estimator and coordinates", "why_tests_cant": "All states of the estimator and later predictions.", "anchors": ["src/harmonica/_equivalent_sources/cartesian.py: estimate_required_memory", "src/harmonica/_equivalent_sources/gradient_boosted.py: estimate_required_memory"]}
{"id": "C80", "title": "Removed keyword arguments of grid are rejected, unknown ones reported, and profile always uses its own height", "statement": "grid raises ValueError exactly when one of upward, shape, region, spacing is passed and otherwise warns exactly when some keyword is ignored; profile passes upward as extra coordinates, drops a user's extra_coords with a warning and keeps every other keyword.", "quantifier": "every set of keyword arguments", "why_tests_cant": "All keyword sets.", "anchors": ["src/harmonica/_equivalent_sources/cartesian.py: grid, profile", "src/harmonica/_equivalent_sources/spherical.py: grid", "src/harmonica/_equivalent_sources/utils.py: pop_extra_coords"]}
{"id": "C81", "title": "Poisson's relation links the magnetic and gravity fields of an ellipsoid", "statement": "For one ellipsoid with a density and a magnetisation, ellipsoid_magnetic outside the body is mu_0 / (4 pi G rho) times the gradient tensor of ellipsoid_gravity applied to the magnetisation, and inside the same plus mu_0 times the magnetisation.", "quantifier": "every well-proportioned ellipsoid, orientation, susceptibility, remanence, inducing field and point off the surface", "why_tests_cant": "Relates two independent functions through derivatives at every point.", "anchors": ["src/harmonica/_forward/ellipsoids/magnetic.py: ellipsoid_magnetic", "src/harmonica/_forward/ellipsoids/gravity.py: ellipsoid_gravity"]}
{"id": "C82", "title": "Ellipsoid magnetic fields satisfy the conditions at the surface", "statement": "At every surface point the normal component of B is the same inside and outside, and the tangential component of H = B / mu_0 - M is the same; the magnetisation is chi times the total internal H (inducing plus demagnetising) plus the remanence.", "quantifier": "every well-proportioned ellipsoid, orientation, susceptibility, remanence, inducing field and surface point", "why_tests_cant": "Statement about limits at a continuum of points.", "anchors": ["src/harmonica/_forward/ellipsoids/magnetic.py: ellipsoid_magnetic, get_demagnetization_tensor_internal, get_demagnetization_tensor_external"]}
{"id": "C83", "title": "An IGRF14 object answers for its attributes, whatever was asked before", "statement": "The field and the coefficients an IGRF14 object returns depend only on its attributes: after any sequence of requests, including failed ones, it answers like a new object with the same date and degrees; changing the date or the maximum degree takes effect; ISO dates with a time zone are accepted; a maximum degree beyond the file is refused.", "quantifier": "for all histories of predict, grid, coefficients and attribute assignments, all coefficient files and dates", "why_tests_cant": "Tests make one object per assertion and do not interleave requests with assignments to attributes.", "anchors": ["src/harmonica/_spherical_harmonics/igrf.py:281-304", "src/harmonica/_spherical_harmonics/igrf.py:80-143", "src/harmonica/_spherical_harmonics/igrf.py:325-387"]}
{"id": "C84", "title": "IGRF14.predict returns, in the shape of the coordinates, minus the gradient of the main field of the date", "statement": "For coordinate arrays of any one shape, predict returns three arrays of that shape whose elements are, point by point, the geodetic components of minus the gradient of the potential with the coefficients interpolated to the date; one height may stand for all points.", "quantifier": "for all regular coefficient files, dates within them, degrees up to that of the file, shapes and points off the axis", "why_tests_cant": "Tests compare the norm or a few components with reference programs at sampled points, and only with one-dimensional or equal-shape arrays of several elements.", "anchors": ["src/harmonica/_spherical_harmonics/igrf.py:325-387", "src/harmonica/_spherical_harmonics/igrf.py:533-629"]}
{"id": "C85", "title": "Normalised Legendre functions are orthogonal over the sphere with the mean square that their normalisation promises", "statement": "The tables computed by associated_legendre, associated_legendre_schmidt and associated_legendre_full, multiplied by cosines and sines of the longitude, are orthogonal over the unit sphere for every pair of different degree, order and phase; the mean square is 1 for full normalisation and 1/(2n+1) for Schmidt semi-normalisation, and the documented factors are exactly those that normalise the unnormalised functions.", "quantifier": "for every maximum degree, every contents of the output array, every pair of degrees and orders up to it and every phase; the integral runs over the whole sphere", "why_tests_cant": "an integral over the whole sphere of the outputs at every latitude; tests compare table entries with reference values at some angles", "anchors": ["src/harmonica/_spherical_harmonics/legendre.py:16-71", "src/harmonica/_spherical_harmonics/legendre.py:128-190", "src/harmonica/_spherical_harmonics/legendre.py:255-320"]}
{"id": "C86", "title": "The field computed from a set of Gauss coefficients has neither divergence nor curl", "statement": "The east, north and radial components returned by spherical_harmonics_magnetic_field are, as functions of radius, colatitude and longitude, the components of one vector field whose divergence and curl vanish at every point where the code divides by the sine of the colatitude (Maxwell's equations outside the sources).", "quantifier": "for every pair of coefficient arrays, every minimum and maximum degree, every reference radius and every point away from the poles", "why_tests_cant": "relates derivatives in all directions of all outputs at every point; tests compare values with tables at finitely many points", "anchors": ["src/harmonica/_spherical_harmonics/igrf.py:561-629"]}
{"id": "C87", "title": "Grid transformations are linear and do not depend on position or on the order of the axes", "statement": "Every transformation in the wavenumber domain (derivatives, upward continuation, Gaussian filters, reduction to the pole) maps a linear combination of grids to the same combination of the results; moving the coordinates of the grid leaves the values; rolling the grid periodically rolls the result (without padding); exchanging the axes of the grid exchanges those of the result, with easting and northing derivatives interchanged and declinations counted from the other axis.", "quantifier": "for all grids with transformable coordinates, coefficients, offsets, rolls and orders, with or without the default padding", "why_tests_cant": "metamorphic relations between runs on different grids; tests run each transformation on one synthetic grid", "anchors": ["src/harmonica/filters/_utils.py:17-117", "src/harmonica/filters/_filters.py:16-457", "src/harmonica/_transformations.py:25-461"]}
{"id": "C88", "title": "Spherical forward models do not depend on the meridian longitudes are counted from", "statement": "Moving every observation point and every point source or tesseroid east by the same angle, with each longitude written in any convention (whole turns added), gives exactly the same field and the same errors from point_gravity in spherical coordinates and tesseroid_gravity with constant or variable density: same points reported inside, same adaptive discretisation, same buffer overflows, same values.", "quantifier": "for all angles, shapes, points, sources, tesseroids accepted by the checks in both positions (or with checks disabled), densities, fields", "why_tests_cant": "a metamorphic relation over all angles and longitude conventions, through a recursive discretisation; tests compare a few shifts by 360 degrees", "anchors": ["src/harmonica/_forward/_tesseroid_utils.py:150-538", "src/harmonica/_forward/tesseroid_gravity.py:35-439", "src/harmonica/_forward/point.py:324-447", "src/harmonica/_forward/utils.py:121-201"]}
{"id": "C89", "title": "Equivalent sources predict a harmonic field that moves with the survey", "statement": "Away from its sources a fitted EquivalentSources or EquivalentSourcesGB predicts a harmonic function: the predictions are the gravity potential of point masses at the sources as computed by point_gravity, their second derivatives along the axes sum to zero, and high above the sources they are bounded by the sum of the absolute coefficients over the height. Shifting the survey (and custom sources) shifts the fitted sources and changes neither coefficients, errors raised, nor predictions at shifted points; the same holds for EquivalentSourcesSph when all longitudes are counted from another meridian.", "quantifier": "for all sources, coefficients, points away from the sources, shifts, data, weights, depths, windows and external solvers (block averages, neighbour distances and windows that move with the data)", "why_tests_cant": "Laplace's equation needs derivatives at every point; the shift relation ranges over all surveys and passes through fitting, windows and boosting", "anchors": ["src/harmonica/_equivalent_sources/cartesian.py:120-644", "src/harmonica/_equivalent_sources/gradient_boosted.py:150-397", "src/harmonica/_equivalent_sources/spherical.py:100-248", "src/harmonica/_equivalent_sources/utils.py:52-103", "src/harmonica/_forward/point.py:145-447"]}
{"id": "C90", "title": "Ellipsoid fields depend only on the solids and move with them", "statement": "The gravity and magnetic fields computed for ellipsoids depend on the solids, not on how the user describes them: the same solid given with its semi-axes in another order and the matching angles gives the same arrays. When a rigid motion (rotation, reflection, shift) carries every ellipsoid onto another one of the same density, the field of the moved bodies at a moved point is the moved field; the same holds for the magnetic field when the motion also turns the inducing field, the remanent magnetisation and the susceptibility tensor, and then either both calls give a field or both meet a singular system.", "quantifier": "all lists of ellipsoids with positive semi-axes in any order, all angles and centres, all orthogonal matrices and shifts, all densities, susceptibilities (isotropic or tensors), remanent magnetisations, inducing fields, array shapes and observation points, including the nearly equal semi-axes that the code treats as spheres or spheroids", "why_tests_cant": "A test compares a few rotated bodies; the claim is about every pair of descriptions of the same solid, which exist in a continuum for spheres and spheroids, and about every motion.", "anchors": ["src/harmonica/_forward/ellipsoids/gravity.py:31-199", "src/harmonica/_forward/ellipsoids/magnetic.py:37-588", "src/harmonica/_forward/ellipsoids/utils.py:19-226", "src/harmonica/_forward/utils.py:395-434"]}
{"id": "C91", "title": "Far from an ellipsoid its fields are those of a point mass and a point dipole", "statement": "For an ellipsoid that is a sphere or has two semi-axes that differ by more than twice the relative tolerance of the shape test, with squared semi-axes that differ by at most d: at every distance r from the centre that is at least the largest semi-axis and has r^2 >= 2 d, ellipsoid_gravity differs from the attraction of the mass volume*density at the centre by at most 18 G |M| d / r^4, and ellipsoid_magnetic differs from the field of the dipole moment volume*magnetisation by at most (162/pi) mu_0 V |M| d / r^5, where the magnetisation is the uniform one that explains the field inside (the induced one in the reduced field plus the remanent one for an isotropic body). For a body with unequal semi-axes within the tolerance the rule fails: the field is that of the mass of a larger sphere.", "quantifier": "all semi-axes, rotations, centres, densities, susceptibilities, remanences, inducing fields, and all observation points beyond the bound", "why_tests_cant": "A test compares a few points at one distance within a tolerance; the bound with its decay rate in the distance, for every shape and orientation, needs a proof.", "anchors": ["src/harmonica/_forward/ellipsoids/gravity.py", "src/harmonica/_forward/ellipsoids/magnetic.py", "src/harmonica/_forward/ellipsoids/utils.py"]}
{"id": "C92", "title": "Rounding errors of distances, predictions and corrections are bounded", "statement": "With every arithmetic operation and every sqrt, cos and sin followed by a rounding of relative error at most u (for round to nearest of 53 bits u = 2^-53, which is proved): distance_cartesian has relative error at most 16 u and is zero for equal points only; the predict kernel of Cartesian equivalent sources with n sources raises ZeroDivisionError exactly when a point is at a source, and otherwise each prediction differs from the sum of coefficients over distances by at most 4 (n + 6) u times the sum of absolute coefficients over distances; bouguer_correction has relative error at most 36 u; the square of distance_spherical is that of the distance up to 400 u times the sum of the squared radii, so distances that are large compared with 20 sqrt(u) radii have a small relative error and are numbers. Without rounding the functions are those of the other properties. Refuted: distinct points have a nonzero distance_spherical (points of the Earth's surface two centimetres apart are at distance zero).", "quantifier": "all rounding functions of relative error at most u, all points, all numbers of sources and coefficients, all heights and densities", "why_tests_cant": "A test compares a few results with a tolerance; a bound on the error holds for every input and every number of sources, and only a proof finds that the tolerance of the spherical distance is absolute instead of relative.", "anchors": ["src/harmonica/_forward/utils.py:90-201", "src/harmonica/_equivalent_sources/utils.py:77-97", "src/harmonica/_equivalent_sources/cartesian.py:634-644", "src/harmonica/_gravity_corrections.py:68-77"]}
{"id": "C93", "title": "Equivalent sources reproduce level surveys exactly", "statement": "Data at distinct points of the same height (for EquivalentSourcesSph: the same radius), sources straight below them at any nonzero depth, positive weights and no damping: fit returns without error, and whatever the data, predict at the data points returns the data exactly; gradient boosting with up to 5000 data does the same. The coefficients are the only ones that predict those values. With damping the minimising coefficients are unique for every survey and every arrangement of the sources, so that predictions do not depend on the solver. For data at different heights this fails: there is a survey of two points, and sources five metres below them, for which no coefficients reproduce some data.", "quantifier": "all numbers of points and all positions at a common height or radius, all depths, data and weights, every solver that minimises", "why_tests_cant": "Tests fit one synthetic grid and compare with a tolerance; that the system matrix is never singular for level surveys is a statement about matrices of every size (1/distance kernels are positive definite), and the failing rugged survey is a set of measure zero.", "anchors": ["src/harmonica/_equivalent_sources/cartesian.py:236-281", "src/harmonica/_equivalent_sources/cartesian.py:283-330", "src/harmonica/_equivalent_sources/cartesian.py:353-383", "src/harmonica/_equivalent_sources/cartesian.py:634-644", "src/harmonica/_equivalent_sources/spherical.py:176-248", "src/harmonica/_equivalent_sources/gradient_boosted.py:188-330"]}
{"id": "C94", "title": "Windows of gradient boosting reach all data and sources", "statement": "For every window size and every shuffle, if rolling_window cuts squares that cover the region it is given: the region passed to it is the smallest one with all data and all sources; every datum shares a window with the source below it, so that with sources below the data no datum and no source is left out; the data and sources of a window are never further apart along an axis than the side of the window, which for the default size is that of a square with 5000 evenly spread data; no window is empty. Sources that are all further than a window from all data (possible with block averages) are never fitted: fit succeeds with coefficients zero.", "quantifier": "all surveys and sources, all window sizes, all orders of the windows, every rolling_window that cuts covering squares", "why_tests_cant": "Tests look at a few windows of one grid; that nothing falls between the windows has to hold for every arrangement of data and sources.", "anchors": ["src/harmonica/_equivalent_sources/gradient_boosted.py:295-373", "src/harmonica/_equivalent_sources/gradient_boosted.py:376-397", "src/harmonica/_equivalent_sources/gradient_boosted.py:188-293"]}
{"id": "C95", "title": "Fluxes through a plane obey Gauss's law and the Bouguer correction is an endless plate", "statement": "The g_z that point_gravity computes for any masses, integrated over a square of a horizontal plane whose side grows without bound, tends to 2 pi G times (mass below minus mass above the plane) in mGal m^2; the b_u that dipole_magnetic computes for any dipoles tends to zero flux; bouguer_correction is the limit of the g_z, at the top of a plate, of point masses that fill a square plate of thickness |topography| with the crust density (heights) or the water minus crust density (depths). The integrals exist for every rectangle.", "quantifier": "all lists of masses and dipoles off the plane, all planes, all heights, depths and densities", "why_tests_cant": "Tests compute finite grids of finite extent; the law is about a limit over the whole plane and links functions (point_gravity, bouguer_correction, dipole_magnetic) that tests treat separately.", "anchors": ["src/harmonica/_forward/point.py:35-196", "src/harmonica/_forward/dipole.py:27-137", "src/harmonica/_gravity_corrections.py:16-78"]}
{"id": "C96", "title": "Fitted sources respond linearly to the data, ignore their order, and shrink with damping", "statement": "With positive damping, whatever the survey and the sources: whether fit succeeds does not depend on the values of the data, and the prediction anywhere for a combination of two data sets is the same combination of the predictions, for EquivalentSources, EquivalentSourcesSph and, through all windows of the same shuffle, EquivalentSourcesGB; listing the data (with coordinates and weights) and the sources in another order changes no prediction. Without damping the predictions at the data points are linear in the data. The weighted squared misfit plus damping times the scaled squared coefficients never exceeds the weighted squared data; more damping never gives a smaller misfit nor larger scaled coefficients.", "quantifier": "every survey, weights, damping, data, order of data and of sources, number of windows", "why_tests_cant": "tests fit a few surveys; superposition and independence of the order are statements about pairs of fits for all data", "anchors": ["src/harmonica/_equivalent_sources/cartesian.py:236-281", "src/harmonica/_equivalent_sources/cartesian.py:353-383", "src/harmonica/_equivalent_sources/spherical.py:176-248", "src/harmonica/_equivalent_sources/gradient_boosted.py:188-293"]}
{"id": "C97", "title": "The transformations treat the mean level and the scale of a grid consistently", "statement": "Adding a constant to a grid adds the same constant to the upward continuation and to the low-pass filter, and nothing to derivatives (FFT), to the high-pass filter and to the reduction to the pole; without padding the mean of the result is the mean of the grid or zero, accordingly. Multiplying the grid by p and adding c multiplies the total gradient amplitude by |p|; the tilt angle is unchanged for p > 0 and changes sign for p < 0.", "quantifier": "all grids of any size, coordinates (increasing or decreasing), constants and factors, heights, wavelengths, orders and angles, with the default padding of any width or none", "why_tests_cant": "tests compare a few grids with analytical fields within a tolerance; whether a base level leaks into a result is a statement about every grid and every constant", "anchors": ["src/harmonica/_transformations.py:25-589", "src/harmonica/filters/_filters.py:16-457", "src/harmonica/filters/_utils.py:17-117"]}
{"id": "C98", "title": "The buffers of the tesseroid discretisation suffice", "statement": "The adaptive discretisation of a tesseroid returns if n halvings of its sides make them, times the distance-size ratio, no longer than the distance from the point to the tesseroid, with a stack of 1 + 7n/3 rows and 2^n rows for the pieces, and makes no more than 2^n pieces. With the buffers of the code (100 and 100000 rows) sixteen halvings may be needed: then the potential and the acceleration of any number of tesseroids at any number of points outside are returned. What is returned is the field of the point masses of pieces that tile the tesseroids and obey the ratio 1 for the potential and 5/2 for the acceleration. Points above or below by delta are delta away. At the points of a tesseroid itself, its surface included, the radial discretisation needs more than any buffer for ratios of 9/5 and more, so the acceleration is never returned there.", "quantifier": "all tesseroids within the documented bounds, all observation points, all buffer sizes, all ratios", "why_tests_cant": "The buffers are exhausted, or not, depending on the geometry of one tesseroid and one point; a test shows for single cases that no OverflowError is raised.", "anchors": ["src/harmonica/_forward/_tesseroid_utils.py:130-260", "src/harmonica/_forward/tesseroid_gravity.py:29-32", "src/harmonica/_forward/tesseroid_gravity.py:290-340"]}
{"id": "C99", "title": "Fields of masses lie between those of the whole mass at the nearest and at the farthest place", "statement": "For masses that are nowhere negative the potential of point_gravity lies between G M / far and G M / near, where near and far bound the distances to the masses, and g_z lies between G M drop / far^3 and G M / near^2 (in mGal) when all masses are at least drop lower than the observation point; the same holds for tesseroid_gravity except that the quadrature over latitude may lose up to 1/20 of the mass and never gains any. More density gives more potential and, at points above the tesseroids, more g_z.", "quantifier": "for all numbers and positions of masses, tesseroids and observation points, both coordinate systems of point_gravity, with and without radial discretization, and all distances near and far that bound those of the masses", "why_tests_cant": "Unit tests compare with shells and with few point masses at single places; a bound for every arrangement of masses and every subdivision of every tesseroid needs the quadrature to be shown a mean with nonnegative weights.", "anchors": ["src/harmonica/_forward/point.py:30-33", "src/harmonica/_forward/point.py:357-440", "src/harmonica/_forward/tesseroid_gravity.py:35-45", "src/harmonica/_forward/_tesseroid_utils.py:19-115", "src/harmonica/_forward/_tesseroid_utils.py:150-238"]}
{"id": "C100", "title": "Transformations amplify values and noise by at most a stated factor", "statement": "Without padding, the sum of squares of the output of a transformation is at most q^2 times that of its input, where q is (pi/dx)^n and (pi/dy)^n for the n-th easting and northing derivatives, (pi sqrt(1/dx^2 + 1/dy^2))^n for the upward ones, 1 for upward continuation and the Gaussian filters, exp(h pi sqrt(1/dx^2 + 1/dy^2)) for a continuation h downwards and 1/|sin I sin Im| for the reduction to the pole; the squared differences of the outputs of two grids on the same nodes are bounded in the same way, and no output value exceeds q times the root of the sum of squares of the input. Upward continuation by h attenuates grids of zero mean at least by exp(-2 pi h/L), where L is the length of the longer side.", "quantifier": "for all grids with evenly spaced coordinates, increasing or decreasing, of all sizes, steps and values, all orders, wavelengths, heights, inclinations and declinations other than horizontal", "why_tests_cant": "Tests transform a few smooth synthetic fields; how noise at any wavenumber of any grid is amplified needs Parseval's theorem and bounds for the response at every frequency of the grid.", "anchors": ["src/harmonica/filters/_filters.py:14-67", "src/harmonica/filters/_filters.py:70-121", "src/harmonica/filters/_filters.py:124-175", "src/harmonica/filters/_filters.py:178-232", "src/harmonica/filters/_filters.py:235-457", "src/harmonica/_transformations.py:25-461"]}
{"id": "C101", "title": "The default grid of the IGRF model loses nothing", "statement": "With neither spacing nor shape given, IGRF14.grid uses the spacing 180/(2N+2) degrees for a model of maximum degree N. This spacing divides the globe exactly. A global grid with it on the surface of the ellipsoid determines every Gauss coefficient of degrees min_degree to N: two sets of coefficients with the same grid are equal (the sine coefficients of order 0, which have no effect, excepted), so they predict the same field at every other point.", "quantifier": "all maximum degrees N >= 1 and minimum degrees, all coefficient sets of the right shape, all ellipsoids of revolution with a > 0 and e^2 < 1 (spheres included), all western limits, all evaluation points", "why_tests_cant": "a test can compare a few fields; it cannot show that no two different models share a grid, which is what the sampling theorem cited in the documentation promises, least of all on an ellipsoid where the radius changes with latitude", "anchors": ["src/harmonica/_spherical_harmonics/igrf.py:146-165", "src/harmonica/_spherical_harmonics/igrf.py:439-470"]}
{"id": "C102", "title": "The equivalent sources work in the type they are asked for", "statement": "EquivalentSources and EquivalentSourcesGB with a dtype round coordinates, data and weights to that type on the way in: fitting and predicting with values that were rounded beforehand gives identical results. The source coordinates stored by a fit, the coefficients of the gradient-boosted class and every predicted value are values of that type.", "quantifier": "all types whose rounding is idempotent and keeps zero, all data, weights, coordinates, windows, least-squares solvers and block averages", "why_tests_cant": "a test can look at the dtype attribute of one result; it cannot show that no value of higher precision takes part in any fit", "anchors": ["src/harmonica/_equivalent_sources/cartesian.py:263-281", "src/harmonica/_equivalent_sources/cartesian.py:376-383", "src/harmonica/_equivalent_sources/gradient_boosted.py:215-242", "src/harmonica/_equivalent_sources/utils.py:14-38"]}
{"id": "C103", "title": "Point masses and dipoles: motion, scale and reciprocity", "statement": "Rotating, reflecting and displacing point masses together with the observation point keeps the potential returned by point_gravity, rotates the acceleration (g_e, g_n, -g_z) and turns the gradient tensor; dipole_magnetic rotates its field likewise when the moments turn too. On the globe potential and g_z do not change under any rotation about the centre. Enlarging lengths by k divides potential, acceleration, gradients and dipole field by k, k^2, k^3 and k^3. Two sets of masses exert opposite forces and torques on each other and have equal potential energies, and two sets of dipoles have equal interactions both ways.", "quantifier": "all lists of masses and dipoles, all points, all orthogonal matrices, displacements and scales", "why_tests_cant": "Quantifies over all motions and source configurations; relates the outputs of separate calls.", "anchors": ["src/harmonica/_forward/point.py: point_gravity, point_mass_cartesian, point_mass_spherical", "src/harmonica/_forward/dipole.py: dipole_magnetic"]}
{"id": "C104", "title": "Euler methods do not depend on frame, unit or order", "statement": "Expressing coordinates and derivatives in another frame (origin, rotation or mirror), multiplying the field by a non-zero factor and, for EulerDeconvolution, raising it by a constant, changes location_, base_level_, covariance_, data_misfit_ and the chosen structural index of EulerDeconvolution and EulerInversion in the corresponding way and no other, including errors and the warning; EulerInversion needs weights that treat the turned directions alike, as the defaults do for rotations about the vertical. The order of the data does not matter.", "quantifier": "all data sets, frames, factors, weights, structural indices, iteration limits and tolerances", "why_tests_cant": "Relates two complete runs of an iterative inversion for all data and all frames.", "anchors": ["src/harmonica/_euler_methods.py:108-168", "src/harmonica/_euler_methods.py:311-443", "src/harmonica/_euler_methods.py:445-516"]}
{"id": "C105", "title": "Tesseroid gravity differs from Newton's integral over the solids by a stated bound and converges to it", "statement": "Whenever tesseroid_gravity returns, each value differs from Newton's integral over the (constant density) tesseroids by no more than the sum over tesseroids of |density| volume (2 s rho + k h^4 / 150), where k and s are the largest field and the largest slope of the field of a unit mass at the tesseroid's distance delta from the point, h is half its height in latitude (radians) and rho is the farthest that a part small enough for the distance-size ratio reaches from its centre, which never exceeds what follows from the sizes of the tesseroid. If every tesseroid is cut into n parts along each axis then, for all n large enough, the call returns and every value is within any given tolerance of Newton's integral over the original tesseroids.", "quantifier": "for all numbers of tesseroids and points, densities of both signs, both fields, with and without radial discretization, all clearances delta > 0, and all tolerances (convergence: for all n from some N on)", "why_tests_cant": "Unit tests compare with spherical shells (the only closed form) at few heights; they say nothing on single tesseroids nor on the limit of finer models.", "anchors": ["src/harmonica/_forward/tesseroid_gravity.py:35-45", "src/harmonica/_forward/tesseroid_gravity.py:161-262", "src/harmonica/_forward/_tesseroid_utils.py:19-115", "src/harmonica/_forward/_tesseroid_utils.py:150-238", "src/harmonica/_forward/_tesseroid_utils.py:240-259"]}
{"id": "C106", "title": "Tesseroid gravity with a density function of the radius differs from Newton's integral by a stated bound and converges to it", "statement": "Whenever tesseroid_gravity with a callable density returns, each value differs from the integral over the tesseroids of density times Newton's kernel by no more than the sum over tesseroids of volume (2 (m s + d k) rho + m k h^4 / 150), where m bounds the size of the density between bottom and top, d bounds its change per unit of radius, k and s are the largest field and the largest slope of the field of a unit mass at the tesseroid's distance delta from the point, h is half its height in latitude (radians) and rho is the farthest that a part small enough for the distance-size ratio reaches from its centre. The layers made by the density-based discretisation do not enter the bound. If every tesseroid is cut into n parts along each axis then, for all n large enough, the call returns (all loops end) and every value is within any given tolerance of that integral.", "quantifier": "for all numbers of tesseroids and points, all density functions that are bounded and Lipschitz on the tesseroids, both fields, with and without radial discretization, all clearances delta > 0, any bounded minimiser, and all tolerances (convergence: for all n from some N on and all fuels from some F on)", "why_tests_cant": "Unit tests compare a few density functions with closed forms for whole shells; nothing bounds the error for other functions, single tesseroids or the limit of finer models.", "anchors": ["src/harmonica/_forward/tesseroid_gravity.py:161-213", "src/harmonica/_forward/tesseroid_gravity.py:339-439", "src/harmonica/_forward/_tesseroid_variable_density.py:18-118", "src/harmonica/_forward/_tesseroid_variable_density.py:121-196", "src/harmonica/_forward/_tesseroid_utils.py:19-115", "src/harmonica/_forward/_tesseroid_utils.py:150-238"]}
{"id": "C107", "title": "A spherical shell of tesseroids has the field of the shell", "statement": "Tesseroids that together make up a whole spherical shell, of constant density or of a density that depends on the radius, have as Newton integral the field given by the shell theorem: above the shell that of a point mass at the centre with the mass of the shell, in the cavity a potential that is the same everywhere and no acceleration. The values computed by tesseroid_gravity come as close to that field as wanted once the tesseroids are cut finely enough.", "quantifier": "all inner and outer radii, all densities (Lipschitz functions of the radius in the variable case), all points above the shell or in the cavity, both fields, both kinds of discretisation, every tolerance", "why_tests_cant": "The tests compare some shells at some points with the analytic field within a tolerance of a few per mille; they cannot show that the remaining difference is a discretisation error that vanishes under refinement, nor that it does so for every radius, density profile and point.", "anchors": ["src/harmonica/_forward/tesseroid_gravity.py:35-45", "src/harmonica/_forward/tesseroid_gravity.py:161-262", "src/harmonica/_forward/tesseroid_gravity.py:339-439", "src/harmonica/_forward/_tesseroid_utils.py:19-115", "src/harmonica/_forward/_tesseroid_utils.py:150-259", "src/harmonica/_forward/_tesseroid_variable_density.py:18-118"]}
{"id": "C108", "title": "Concentric layers have the same field as tesseroids, as ellipsoids and as a point mass", "statement": "A body of concentric layers of constant density can be given to ellipsoid_gravity as balls (each cavity a ball of the opposite density), to tesseroid_gravity as shells of tesseroids, and to point_gravity as its whole mass at the centre. The balls' field points to the centre with G times the mass below over the squared radius, inside of the layers too; the tesseroids' downward component comes as close to it as wanted when they are cut finely enough, above the layers, below them and in the gaps between them; and above all layers the point mass's field is exactly the same.", "quantifier": "all lists of layers (any radii and densities, also overlapping), all points but the centre for the balls, all points outside of the layers for the tesseroids, all points not below the outermost layer for the point mass, every shape of the coordinates and every tolerance", "why_tests_cant": "Each forward model has its own tests against its own analytic solution; that three implementations which share no code (closed form with rotations and a special case for spheres, adaptive quadrature in spherical coordinates, direct Newton law) describe one and the same field in one unit and sign convention is not tested at all, and a finite comparison could not separate a discretisation error from a wrong constant.", "anchors": ["src/harmonica/_forward/ellipsoids/gravity.py:31-198", "src/harmonica/_forward/tesseroid_gravity.py:35-262", "src/harmonica/_forward/_tesseroid_utils.py:19-259", "src/harmonica/_forward/point.py:35-220"]}
{"id": "C109", "title": "The degree-one part of the main field is the field of a dipole at the centre of the Earth", "statement": "With Gauss coefficients of degree one only, IGRF14.predict returns the components, towards the geodetic east, north and zenith, of the very vectors that dipole_magnetic returns for a dipole at the Earth's centre with the moment 4 pi a^3 / mu0 (g11, h11, g10), and that ellipsoid_magnetic returns outside of a ball around the centre with that moment as remanent magnetisation.", "quantifier": "all coefficients of degree one, every maximum degree, all lists of points that are more than 1e-10 rad off the axis, every conversion from geodetic to spherical coordinates, all radii of the ball not above the points, every inducing field, every permeability", "why_tests_cant": "The tests compare the IGRF with values of another program for a few dates and places within a tolerance of nanoteslas; that its normalisation, signs, units and rotation of the horizon agree with the other two magnetic forward models at every place is a statement about three implementations with different formulas that no test compares.", "anchors": ["src/harmonica/_spherical_harmonics/igrf.py:325-385", "src/harmonica/_spherical_harmonics/igrf.py:533-629", "src/harmonica/_forward/dipole.py:27-344", "src/harmonica/_forward/ellipsoids/magnetic.py:33-150"]}
{"id": "C110", "title": "Dipoles and equivalent sources agree with point masses", "statement": "(a) Poisson's relation across modules: for any dipoles and any observation points off them, each component b_c of dipole_magnetic equals mu_0/(4 pi G) times the sum of the gravity-gradient rows that point_gravity returns for point masses at the dipoles whose masses are the easting moments (g_ce) and northing moments (g_cn), minus the row for the upward moments (g_cz), the vertical row with opposite sign, since the vertical axis of the gravity gradient points down and that of the magnetic field up. (b) The prediction of fitted equivalent sources, Cartesian or spherical, times the gravitational constant is the potential point_gravity computes for point masses at the sources with the coefficients as masses.", "quantifier": "all dipoles, moments, observation points off the dipoles, components, array shapes; all fitted sources, coefficients, points away from the sources", "why_tests_cant": "The relation ties four separately implemented kernels, with different axis conventions and units, on all inputs; tests check each against hand-computed values at a few points.", "anchors": ["src/harmonica/_forward/dipole.py:27-137", "src/harmonica/_forward/dipole.py:203-271", "src/harmonica/_forward/dipole.py:350-400", "src/harmonica/_forward/point.py:35-220", "src/harmonica/_equivalent_sources/cartesian.py:353-383", "src/harmonica/_equivalent_sources/cartesian.py:635-644", "src/harmonica/_equivalent_sources/spherical.py:219-248", "src/harmonica/_equivalent_sources/utils.py:77-103"]}
{"id": "C111", "title": "Mirror images across the equator or a meridian have the same field", "statement": "Mirroring the observation points and the spherical sources together, across the equator, across any meridian or both, leaves the results unchanged. For point masses in spherical coordinates the calls return the same arrays and raise the same errors. For tesseroids of constant or radially varying density that pass the boundary checks (longitudes written in any convention), and with the checks disabled, the two calls have the same outcome (same array, or same exception), except that the adaptive discretisation, which visits the mirrored pieces in another order, may overflow a buffer in one of them; whenever both discretisations finish, the pieces of the image are the images of the pieces, in some order.", "quantifier": "all points, sources, tesseroids, densities and density functions, both fields, all array shapes, all mirrors", "why_tests_cant": "The splitting loop is not symmetric (a stack, pieces pushed west to east and south to north), so symmetry of the result needs an argument about all runs; tests only compare chosen configurations.", "anchors": ["src/harmonica/_forward/_tesseroid_utils.py:150-259", "src/harmonica/_forward/_tesseroid_utils.py:263-290", "src/harmonica/_forward/tesseroid_gravity.py:34-200", "src/harmonica/_forward/tesseroid_gravity.py:339-439", "src/harmonica/_forward/point.py:35-220", "src/harmonica/_forward/utils.py:121-200"]}
{"id": "C112", "title": "Enlarging tesseroids is a change of the unit of length", "statement": "Multiply the bottom and top radii of every tesseroid and the radii of the observation points by one positive factor k, keeping the angles and densities. tesseroid_gravity then has exactly the same outcome: the same exception when it fails (including the overflow of the discretization buffers and the checks of boundaries and of points inside), and otherwise the same array with every potential multiplied by k squared and every g_z by k. The adaptive discretization returns the enlarged pieces in the same order.", "quantifier": "all tesseroids, densities, points, both fields, radial discretization on or off, checks on or off, every factor k > 0, every buffer size", "why_tests_cant": "Tests use one planet size; the splitting decisions compare distances with sizes of pieces, so a stray absolute length would only show for particular radii.", "anchors": ["src/harmonica/_forward/tesseroid_gravity.py:29-359", "src/harmonica/_forward/_tesseroid_utils.py:20-472"]}
{"id": "C113", "title": "Enlarging ellipsoids is a change of the unit of length", "statement": "Multiply all semi-axes, the centres and the observation coordinates by one positive factor k, keeping orientations, densities, susceptibilities, remanent magnetisations and the inducing field. ellipsoid_gravity returns the same arrays with every component multiplied by k, and ellipsoid_magnetic has exactly the same outcome, values or LinAlgError.", "quantifier": "all lists of ellipsoids with positive semi-axes (also those treated as spheres or spheroids by the tolerance), all points inside or outside, every k > 0", "why_tests_cant": "Tests use fixed sizes of metres; the classification of shapes, the root lambda and the elliptic integrals each scale differently, and a tolerance in absolute length would only show at particular sizes.", "anchors": ["src/harmonica/_forward/ellipsoids/gravity.py:31-199", "src/harmonica/_forward/ellipsoids/magnetic.py:37-628", "src/harmonica/_forward/ellipsoids/utils.py:19-628"]}
{"id": "C114", "title": "Equivalent sources do not depend on the unit of length or the axes", "statement": "Give the data points, the sources and the evaluation points in another unit of length (factor k), from another origin and with turned horizontal axes, or on the sphere from another meridian. Sources placed below the data follow the data, the fit succeeds in one frame when it does in the other, and the predictions are the same: with damping when every source has different distances to some two data points or the unit is kept, and without damping at the data points.", "quantifier": "all lists of data points, data and weights, every similarity of the coordinates, every factor k > 0, every damping; every solver that minimises the damped misfit", "why_tests_cant": "Tests fit one survey in metres in one frame; that a penalty on the coefficients, whose size depends on the unit, has no effect on the predictions is a statement about pairs of fits for all surveys.", "anchors": ["src/harmonica/_equivalent_sources/cartesian.py:165-415", "src/harmonica/_equivalent_sources/cartesian.py:635-644", "src/harmonica/_equivalent_sources/spherical.py:112-282", "src/harmonica/_equivalent_sources/spherical.py:413-424"]}
{"id": "C115", "title": "Upward continuation and low-pass filtering keep to the range of the values of a grid", "statement": "If all values of a grid lie between lo and hi, so do all values of the grid continued upward by a positive height or low-pass filtered. This holds for continuation of grids that change along one direction only, at every height, shape and spacing, with edge padding or without; for every grid continued to a height that is large compared with its extent; and for every grid filtered with a wavelength that is long compared with its extent. It fails for continuation of general grids to small heights and for the low-pass filter: a grid of zeros and a single one gets negative values.", "quantifier": "for all grids, shapes, spacings, values, bounds, heights and wavelengths, paddings by the edge values", "why_tests_cant": "the sign of the discrete kernel depends on the number of nodes, the parity and the height; tests continue a few smooth grids and compare with analytic fields within a tolerance that hides undershoots", "anchors": ["src/harmonica/_transformations.py:228-334", "src/harmonica/filters/_filters.py:178-295", "src/harmonica/filters/_utils.py:17-117"]}
{"id": "C116", "title": "The error of gradient boosting falls only if the windows see all data", "statement": "The reported RMSE does not grow from one window to the next, and ends no larger than the RMS of the data, whenever every window sees all data points and the solver returns best fits (any damping >= 0, any windows of sources, any order). With windows that see part of the data this fails: two data 3 m apart with a source 4 m below each and one window per datum end with an RMSE larger than that of no sources at all, for every solver that fits a single datum with a single source. With weights the weighted misfit does not grow if every window sees all data, but the reported RMSE, which is not weighted, can.", "quantifier": "for all data, sources, dampings and lists of windows that see all data; for all solvers in the counterexample", "why_tests_cant": "the evolution of the error depends on the layout of windows, data and sources; tests check that a few synthetic fits end with a small error", "anchors": ["src/harmonica/_equivalent_sources/gradient_boosted.py:244-293"]}
