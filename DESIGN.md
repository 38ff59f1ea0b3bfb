# Formal model of harmonica: design and trusted base

The code of `/repo` (fatiando/harmonica) is read as text; it is neither built nor run. Everything in
`rocq/theories` is a hand-written Coq 8.16.1 model of it, with proofs.

## Conventions

* Floating point numbers are modelled as Coq real numbers `R` (exact arithmetic), except where the property is about the
  order of operations (parallel schedules: arbitrary non-associative operation) or about integer truncation and NaN,
  which are explicit (`NaN` constructor, truncating casts).
* Exceptions are values (`Raise e`), out-of-bounds accesses inside numba kernels are the error value `OutOfBounds`.
* Loops are folds over index lists or recursion on fuel; fuel exhaustion is a separate result excluded by theorems.
* External libraries (choclo kernels, scipy's optimiser and elliptic integrals, numpy's FFT and leggauss, zlib, verde,
  bordado, boule, sklearn) are Section variables / explicit arguments, or modelled by their documented formula; each is listed below.
* `*Model.v` holds definitions with citations, `*Proofs.v` lemmas, `*Props.v` the property theorems, each with
  `Print Assumptions` and an Example showing that its hypotheses can be met.

## Plan per property

| id | property | theorems in | approach |
|----|----------|------------|----------|
| C01 | Distances are Euclidean distances of the two positions | DistanceProps.v | haversine/`cosd` formulas over R; position maps to R^3; trigonometric identities + sqrt |
| C02 | Point-source fields superpose | PointGravityProps.v | double loop over arrays; sums over lists, induction on the source list, Permutation |
| C03 | Point-source fields are the derivatives of the potential | PointGravityProps.v | docstring kernels over R; Coquelicot is_derive; finite sums of derivatives |
| C04 | Spherical point gravity is the radial derivative of the potential | PointGravityProps.v | spherical kernels; is_derive of G/distance in the radius |
| C05 | Parallel execution is schedule independent | ScheduleProps.v | threads = lists of single-cell updates with an arbitrary (non-associative) operation; induction over an interleaving relation |
| C06 | Observation coordinates of broadcastable shapes give the broadcast result | PointGravityProps.v, PrismProps.v | array reads return an out-of-bounds error value; witness for mixed shapes (refuted) and proof for equal shapes |
| C07 | Sanity checks of point_gravity are complete | PointGravityProps.v | result monad, case analysis |
| C08 | Tesseroid validation accepts exactly well-formed tesseroids | TesseroidProps.v | mirror of the check sequence with NaN-aware comparisons; iff with an independent validity predicate |
| C09 | Longitude normalisation keeps the meridians | TesseroidProps.v | real modulus via floor; whole-turn lemma; witness for the antimeridian case (refuted) |
| C10 | Points inside a tesseroid are always rejected | TesseroidProps.v | exists integer turn <-> rejected, using the range of validated longitudes |
| C11 | Adaptive discretisation tiles the tesseroid | TesseroidProps.v | stack machine with fuel; invariant: stack + output tile the root (coverage, containment, disjointness, volume) |
| C12 | Adaptive discretisation meets the distance-size criterion | TesseroidProps.v | invariant on the output list |
| C13 | Adaptive discretisation terminates within its buffers or reports overflow | TesseroidProps.v | measure argument giving an explicit fuel bound; bounds invariants on the buffers |
| C14 | Gauss-Legendre point masses sit inside the tesseroid and carry its radial mass exactly | TesseroidProps.v | explicit order-2 nodes; algebra over R |
| C15 | Tesseroid fields superpose | TesseroidProps.v | sums over tesseroids; null tesseroids have zero quadrature mass |
| C16 | Density-based radial discretisation tiles the tesseroid | TesseroidDensityProps.v | FIFO splitting loop with oracle for the optimiser; tiling invariant |
| C17 | A constant density function gives the constant-density result | TesseroidDensityProps.v | equality of the two quadratures; min=max branch |
| C18 | Layers are gap-free tilings | LayerProps.v | cell arithmetic over R and lists |
| C19 | Layer top and bottom follow surface and reference | LayerProps.v | masked assignment on dtype-tagged arrays; proof for float, witness for integer arrays (refuted) |
| C20 | Tesseroid layer overlap check is exact | LayerProps.v | arithmetic characterisation of circular overlap; witnesses (refuted) |
| C21 | Layer gravity equals the gravity of its explicit prisms | LayerProps.v | triple loop with skip conditions vs filtered sum |
| C22 | Tesseroid layer gravity uses exactly the valid cells | LayerProps.v | mask/filter lemmas |
| C23 | Prism validation accepts exactly well-formed prisms | PrismProps.v | boolean list predicates |
| C24 | Singular-point warnings are exact | PrismProps.v | mirror of the singular-point predicates vs geometric edge/face predicates |
| C25 | Discarding null prisms changes nothing | PrismProps.v | filter lemmas, zip alignment |
| C26 | Prism gravity superposes and scales | PrismProps.v | sums with abstract kernel (choclo is external), table of signs and units |
| C27 | Vector magnetic field equals its three components | PrismProps.v | three accumulating loops vs one; sums with abstract kernels |
| C28 | Prism to VTK vertices | PrismProps.v | index-table assignment on lists |
| C29 | Ellipsoid rotations are rigid and sort the axes | EllipsoidProps.v | 3x3 matrices over R, trigonometric ring identities, case analysis on axis order |
| C30 | Lambda is the confocal coordinate | EllipsoidProps.v | quadratic and trigonometric cubic root; uniqueness by monotonicity |
| C31 | Elliptical integrals are the stated integrals | EllipsoidProps.v | derivatives by Coquelicot, limit at infinity, fundamental theorem of calculus |
| C32 | Ellipsoid gravity satisfies Poisson's equation and is continuous | EllipsoidFieldProps.v | algebra with A+B+C=2/R; continuity at lambda=0 |
| C33 | Demagnetisation tensors have the required invariants | EllipsoidFieldProps.v, EllipsoidProps.v | algebra on the closed forms |
| C34 | Ellipsoid magnetisation solves the self-consistent equation | EllipsoidFieldProps.v, EllipsoidMagProps.v | 3x3 linear solve as a relation; witness with non-commuting tensor (refuted), proof for commuting tensors |
| C35 | Ellipsoid objects keep positive semi-axes | EllipsoidObjectProps.v | state machine over assignments; invariant by induction over histories; NaN witness |
| C36 | Ellipsoid fields superpose and skip bodies without properties | EllipsoidMagProps.v | fold over the list, permutation |
| C37 | Magnetic angles and vectors convert back and forth | UtilsProps.v | atan2 defined from atan; round-trip case analysis |
| C38 | Total field anomaly is the projection on the field direction | UtilsProps.v | Cauchy-Schwarz |
| C39 | Low-pass and high-pass filters are complementary | TransformProps.v | kernel algebra over C/R; linear DFT pipeline |
| C40 | Upward continuation composes | TransformProps.v | exp identities |
| C41 | Derivative filters are consistent with a harmonic field | TransformProps.v | complex powers; is_derive in the displacement |
| C42 | Filtering a real grid loses nothing when taking the real part | TransformProps.v | conjugate symmetry + inverse DFT of a Hermitian product is real |
| C43 | Reduction to the pole | TransformProps.v | kernel algebra; missing default argument witness (refuted) |
| C44 | Grid transformations keep the caller's data and metadata | TransformGridProps.v | option dictionary as state; history witness (refuted); shape/coordinate preservation |
| C45 | Total gradient amplitude and tilt angle | TransformGridProps.v | sqrt/atan2 facts |
| C46 | Bouguer correction is the infinite slab attraction | UtilsProps.v | case analysis over R |
| C47 | Airy isostasy balances the columns | UtilsProps.v | sum over layers, field algebra |
| C48 | Euler deconvolution recovers the source | EulerProps.v | normal equations over lists; convexity/optimality |
| C49 | Euler inversion keeps the best structural index | EulerProps.v | argmin over a list; state machine |
| C50 | Oasis Montaj header decoding is faithful | OasisProps.v | bytes as Z lists, little-endian decode/encode; total error-valued functions |
| C51 | Oasis Montaj values end at the right node | OasisProps.v | list reshape lemmas |
| C52 | Compressed Oasis grids decompress to the original | OasisProps.v | decompression loop with inflate oracle; induction over blocks |
| C53 | Rotated Oasis grids keep their geometry | OasisProps.v | rotation algebra |
| C54 | ICGEM grids are read with the right orientation | IcgemProps.v | line-level parser model on tokens; reshape/reverse lemmas |
| C55 | Legendre recursions compute the associated Legendre functions | LegendreProps.v | recursion tables as functions; induction on degree; factorial normalisation |
| C56 | Legendre derivative tables are derivatives | LegendreProps.v | is_derive by induction |
| C57 | Schmidt functions are bounded | LegendreProps.v | derivative of the sum of squares is zero |
| C58 | IGRF coefficients are interpolated in time | IgrfProps.v | calendar arithmetic, piecewise linear function |
| C59 | IGRF field is the gradient of a potential | IgrfProps.v | term-by-term derivatives, Chebyshev recursion |
| C60 | IGRF field is continuous at the poles | IgrfProps.v | limit at the pole; witness (refuted) |
| C61 | Equivalent-source prediction is the Jacobian times the coefficients | EqsProps.v | finite sums; least squares as minimiser relation |
| C62 | Equivalent sources are placed as documented | EqsProps.v | case analysis |
| C63 | Memory estimate equals the Jacobian fit allocates | EqsProps.v | size arithmetic; witness with custom points (refuted) |
| C64 | Gradient boosting keeps residual and coefficients consistent | EqsProps.v | loop invariant over arbitrary window lists |
| C65 | Spherical equivalent-source predictions do not depend on the integer or float type of the coordinates | EqsProps.v | truncating accumulation; witness (refuted) |
| C66 | The distance-size criterion bounds the real extent of the pieces | TesseroidProps.v | great-circle widths vs. extent on the sphere; witness |
| C67 | Accepted tesseroids can be computed | TesseroidProps.v | witness with a full turn |
| C68 | Tesseroids with NaN boundaries are rejected | TesseroidProps.v | NaN-aware comparisons; witness |
| C69 | Eastward arcs across either convention's seam are accepted | TesseroidProps.v | witness 170 to -170; proof for the accepted arcs |
| C70 | Tesseroids with a density function: field of point masses | TesseroidDensityProps.v | quadrature sums over the pieces |
| C71 | Dipole fields are minus the gradient of the magnetic potential and have no divergence | PrismProps.v | Coquelicot derivatives of the dipole potential |
| C72 | Cutting a prism in two does not change the field | PrismProps.v | additivity of kernels that are differences of primitives at the corners |
| C73 | Source arrays of inconsistent lengths are rejected | PrismProps.v | case analysis; witness |
| C74 | Prisms with NaN boundaries are rejected | PrismProps.v | NaN-aware comparisons; witness |
| C75 | Exporting a layer keeps every cell's own properties | LayerProps.v | list indexing |
| C76 | Finite-difference derivatives | TransformGridProps.v | numpy.gradient on linear and quadratic data |
| C77 | Iterations of the Euler inversion are optimal steps | EulerProps.v | constrained least squares; relation for runs of the iteration |
| C78 | IGRF coefficient file is read faithfully | IgrfProps.v | fold over the lines of the file |
| C79 | Estimating memory does not change a fitted estimator | EqsProps.v | state of the estimator before and after; witness |
| C80 | Removed keyword arguments of grid are rejected, unknown ones reported, and profile always uses its own height | EqsProps.v | case analysis on keyword names |
| C81 | Poisson's relation links the magnetic and gravity fields of an ellipsoid | EllipsoidMagProps.v | comparison of the two closed forms |
| C82 | Ellipsoid magnetic fields satisfy the conditions at the surface | EllipsoidMagProps.v | jump of the tensor across the surface |
| C83 | An IGRF14 object answers for its attributes, whatever was asked before | IgrfObjectProps.v | object as a state machine over histories; witnesses |
| C84 | IGRF14.predict returns, in the shape of the coordinates, minus the gradient of the main field of the date | IgrfObjectProps.v | composition of C58 and C59 with the shapes of the arrays; witness |
| C85 | Normalised Legendre functions are orthogonal over the sphere with the mean square that their normalisation promises | LegendreOrthoProps.v | orthogonality integrals by induction; waves over longitude; composition with the tables |
| C86 | The field computed from a set of Gauss coefficients has neither divergence nor curl | IgrfMaxwellProps.v | termwise derivatives and Legendre equation |
| C87 | Grid transformations are linear and do not depend on position or on the order of the axes | TransformSymmetryProps.v | filters as circular convolutions; reindexing of sums |
| C88 | Spherical forward models do not depend on the meridian longitudes are counted from | TesseroidTurnProps.v | simulation of the discretisation loop; periodicity of the kernels |
| C89 | Equivalent sources predict a harmonic field that moves with the survey | EqsFieldProps.v | identification with point masses; derivatives; equality of kernels under shifts, carried through every loop |
| C90 | Ellipsoid fields depend only on the solids and move with them | EllipsoidMoveProps.v | The solid fixes its centre (a symmetric bounded set has one centre) and its semi-axes (extremes and trace of the quadratic form); a motion that keeps the solid commutes with every diagonal tensor whose entries agree on equal semi-axes; the local fields and tensors are built from such tensors |
| C91 | Far from an ellipsoid its fields are those of a point mass and a point dipole | EllipsoidFarProps.v | monotone comparison of the integrals A_i with those of the confocal spheres below and above, lambda between r^2-a^2 and r^2-c^2, mean-value bound on the gap; refuted for unequal axes within the tolerance |
| C92 | Rounding errors of distances, predictions and corrections are bounded | FloatProps.v | relative error factors that multiply, induction over the sources; absolute errors for the spherical distance |
| C93 | Equivalent sources reproduce level surveys exactly | EqsExactProps.v | Gaussian kernels positive definite by their power series, 1/sqrt as an integral of Gaussians (Coquelicot), then normal equations |
| C94 | Windows of gradient boosting reach all data and sources | EqsRegionProps.v | smallest boxes by induction over the points; the k-th source window and the k-th data window are cut by the same square |
| C95 | Fluxes through a plane obey Gauss's law and the Bouguer correction is an endless plate | FluxProps.v | closed antiderivatives in both variables, value at the four corners of the square, limits by explicit bounds |
| C96 | Fitted sources respond linearly to the data, ignore their order, and shrink with damping | EqsLinearProps.v | slope of the objective along every direction, uniqueness of the damped minimum, induction over the windows; sums over rearranged indices |
| C97 | The transformations treat the mean level and the scale of a grid consistently | TransformLevelProps.v | orthogonality of the waves at frequency zero gives sums and constants; linearity (C87) for the rest; numpy.gradient kills constants branch by branch |
| C98 | The buffers of the tesseroid discretisation suffice | TesseroidFitProps.v | invariant of the work list: remaining halvings bound the room needed on the stack and the number of pieces; chords inside a tesseroid are shorter than its sizes |
| C99 | Fields of masses lie between those of the whole mass at the nearest and at the farthest place | MassBoundsProps.v | quadrature weights are nonnegative and sum to at least 19/20 and at most all of the mass; induction over the pieces and the masses |
| C100 | Transformations amplify values and noise by at most a stated factor | TransformNoiseProps.v | Parseval's theorem; modulus of every response bounded on the frequencies of the grid |
| C101 | The default grid of the IGRF model loses nothing | IgrfSamplingProps.v | discrete orthogonality in longitude, root counting and leading coefficients of polynomials in latitude |
| C102 | The equivalent sources work in the type they are asked for | EqsDtypeProps.v | unfolding and loop invariants over the kernels |
| C103 | Point masses and dipoles: motion, scale and reciprocity | PointMoveProps.v | closed forms, orthogonal matrices, exchange of sums |
| C104 | Euler methods do not depend on frame, unit or order | EulerFrameProps.v | linear change of variables in the normal equations; induction on iterations; permutation of sums |
| C105 | Tesseroid gravity differs from Newton's integral over the solids by a stated bound and converges to it | TesseroidLimitProps.v | nested Riemann integrals of Lipschitz integrands (additivity over cuts), weighted sums over the quadrature's point masses, invariant of the discretisation loop, Archimedean choice of the cut |
| C106 | Tesseroid gravity with a density function of the radius differs from Newton's integral by a stated bound and converges to it | TesseroidVariableLimitProps.v | iff characterisation of the call, additivity of the integral over piles of layers, quadrature bound for any bounded Lipschitz integrand, maximum of the fuels of the layers |
| C107 | A spherical shell of tesseroids has the field of the shell | ShellProps.v | rotation invariance of the sphere integral (derivative under the integral sign, integration by parts), closed form of the kernels' primitives, then C105 and C106 |
| C108 | Concentric layers have the same field as tesseroids, as ellipsoids and as a point mass | LayeredProps.v | closed form of the balls' field by superposition; shell theorem (C107) for each layer; point mass at the centre |
| C109 | The degree-one part of the main field is the field of a dipole at the centre of the Earth | CentralDipoleProps.v | closed form of the terms of degree one, geometry of the horizon, then C71 and C91 (with no spread of the semi-axes) |
| C110 | Dipoles and equivalent sources agree with point masses | PoissonProps.v | C71, C02 and C61 compared source by source |
| C111 | Mirror images across the equator or a meridian have the same field | TesseroidMirrorProps.v | the tree of cuts as a relation that does not depend on the order of the stack, then the turn of C88 |
| C112 | Enlarging tesseroids is a change of the unit of length | TesseroidScaleProps.v | homogeneity of distances, sizes and kernels carried through the adaptive loop by induction on its fuel; the checks are compared test by test |
| C113 | Enlarging ellipsoids is a change of the unit of length | EllipsoidScaleProps.v | the root lambda and the improper integrals are determined by their defining equations, which scale; uniqueness transfers the scaling to the computed values |
| C114 | Equivalent sources do not depend on the unit of length or the axes | EqsScaleProps.v | the design matrix scales by 1/k and so do its column deviations; the objective is carried over by scaling the coefficients and its minimiser is unique |
| C115 | Upward continuation and low-pass filtering keep to the range of the values of a grid | TransformRangeProps.v | the filtered value is a sum of grid values with weights summing to one; the weights are non-negative because the discrete Poisson kernel has a closed form with non-negative numerator |
| C116 | The error of gradient boosting falls only if the windows see all data | EqsBoostErrorProps.v | induction over the windows from C64: a window never worsens the fit inside itself, which is the whole error if it sees all data; counterexample computed by hand |

## What is modelled

Every definition in a `*Model.v` file cites the file and lines it mirrors. Files and functions:

| source (src/harmonica) | model | left out |
|---|---|---|
| `_forward/utils.py` | `DistanceModel.v`, `EllipsoidModel.v` (get_rotation_matrix) | `initialize_progressbar` |
| `_forward/point.py` | `PointGravityModel.v` | the `parallel` flag only selects a schedule (`ScheduleModel.v`) |
| `_forward/dipole.py` | `PrismModel.v` (dipoles section) | choclo's dipole kernels are given by their documented formula |
| `_forward/prisms/{utils,gravity,magnetic}.py`, `visualization/_prism.py` | `PrismModel.v` | choclo.prism kernels are arguments; pyvista objects |
| `_forward/prisms/layer.py`, `_forward/tesseroid_layer.py` | `LayerModel.v` | xarray attributes, progress bar, pyvista objects |
| `_forward/tesseroid_gravity.py`, `_forward/_tesseroid_utils.py` | `TesseroidModel.v` | progress bar |
| `_forward/_tesseroid_variable_density.py` | `TesseroidDensityModel.v` | scipy's `minimize_scalar` is an argument |
| `_forward/ellipsoids/*` | `EllipsoidModel.v`, `EllipsoidObjectModel.v` | `__str__`, `__repr__`, `to_pyvista` |
| `filters/*`, `_transformations.py` | `TransformModel.v` | dask, array names and attributes |
| `_utils.py`, `_gravity_corrections.py`, `_isostasy.py` | `UtilsModel.v` | `get_harmonica_cache` |
| `_euler_methods.py` | `EulerModel.v` | sparse matrices are written point by point |
| `_io/oasis_montaj_grd.py` | `OasisModel.v` | opening files |
| `_io/icgem_gdf.py` | `IcgemModel.v` | opening files, keyword arguments of loadtxt other than `usecols` |
| `_spherical_harmonics/legendre.py` | `LegendreModel.v` | |
| `_spherical_harmonics/igrf.py` | `IgrfModel.v`, `IgrfObjectModel.v` | download, metadata of the grid |
| `_equivalent_sources/*` | `EqsModel.v` | verde's `grid` and `profile`, `scatter` (raises NotImplementedError) |
| all numba loops | `ScheduleModel.v` | weak memory, exceptions inside threads |

Floating point rounding is modelled in FloatModel.v only (distances, the prediction kernel, the Bouguer correction, C92); every
other file computes with real numbers. Not modelled anywhere: overflow, underflow and signed zeros of arithmetic; memory limits; warnings' texts; plotting;
tests, documentation and packaging.

## Trusted base

1. Coq's kernel (8.16.1), as run by `coqc`; `coqchk -o` has been run on the whole library.
2. The axioms that `Print Assumptions` lists (next section). They are all from Coq's standard library:
   `ClassicalDedekindReals.sig_forall_dec` and `sig_not_dec` (real numbers), `functional_extensionality_dep`, and
   `Classical_Prop.classic`. Coquelicot and the standard library add no others. The development declares none.
3. That the model is faithful to the code: it was written by reading the code; the code was not executed.
4. The conventions about numbers above: the theorems speak of exact real arithmetic.
5. The behaviour of external libraries, which enters in one of two ways.
   * As an argument over which the theorems quantify, sometimes under a stated hypothesis: choclo's prism kernels,
     `scipy.optimize.minimize_scalar` (`bounded_search`, `finds_minima`), `verde.base.least_squares`, `verde.BlockReduce`,
     `bordado.neighbor_distance_statistics`, `bordado.rolling_window`, `sklearn.utils.shuffle`, `zlib.decompress`,
     `numpy.loadtxt`, Python's `int` and `float`, boule's `geodetic_to_spherical`, the tolerance with which xrft accepts
     coordinates as even and the borders of xrft's padding modes other than "edge", casts of numpy to other types,
     contents of uninitialised memory.
   * By a formula taken from its documentation: numpy broadcasting, raveling and fancy assignment; `xrft.fft`, `ifft`,
     `pad`, `unpad`; `xarray.differentiate`; `numpy.polynomial.legendre.leggauss(2)`; `scipy.linalg.inv` and
     `numpy.linalg.solve` (cofactors, error for a zero determinant); `scipy.special.ellipkinc`, `ellipeinc`
     (Legendre's integrals); scipy's `Rotation.from_euler`; `datetime` arithmetic; `array.array`; choclo's point and
     dipole kernels; verde's `check_fit_input` and `n_1d_arrays`; `bordado.get_region`.
6. `theories/*Spec.v` hold the vocabulary in which the theorems are stated (positions, integrals, tilings, ...). They
   must be read to know what the theorems say; the model's helper definitions need not be.

## Behaviour that violates a property

For each of these there is a theorem `..._refuted` with a concrete witness.

* Broadcasting: `point_gravity`, `prism_gravity` and the functions that share the pattern (`prism_magnetic`,
  `dipole_magnetic`, `tesseroid_gravity`, `prism_layer.gravity`, `EquivalentSources.predict`, the ellipsoid functions)
  accept coordinates of different shapes, but leave zeros in the result or read out of bounds (C06).
* `point_gravity` compares only the first array of point coordinates with the masses; `dipole_magnetic` only the
  eastings with the first moment component (C07, C73).
* NaN boundaries of prisms and tesseroids and NaN semi-axes of ellipsoids are accepted (C74, C68, C35).
* Tesseroids: crossing the antimeridian is refused (C69); a full turn has zero great-circle size and fails to be
  discretised (C67); wider than 180 degrees is not split in longitude when it should be (C66); without thickness, a
  density function fails where a constant works (C17).
* Layers: axes accepted within tolerance leave gaps; descending axes give inverted cells, and change the sign of the
  field; integer surfaces truncate the reference; the full globe is refused; descending longitudes may overlap
  (C18, C19, C20, C21).
* Ellipsoids: semi-axes that differ by less than 1e-5 get the integrals of another body, which makes the field of an
  almost-sphere jump at its surface and the trace of the external tensor nonzero (C31, C32, C33). The magnetisation is
  solved with I + N chi where the documentation has I + chi N: wrong for anisotropic susceptibility (C34).
* Grid transformations: the default magnetisation angles of reduction to the pole raise TypeError; at the equator the
  result is NaN; first horizontal derivatives of even-sized grids do not compose and have an imaginary part that is
  dropped; the caller's `pad_kwargs` is modified; decreasing coordinates come back flipped (C41 - C44). Upward
  continuation by a small height and the Gaussian low-pass filter give negative values for non-negative grids (C115). The docstring of
  `derivative_upward` states |k|^n, the code uses (-|k|)^n on upward-pointing coordinates, which is the right one.
* Isostasy: integer arrays raise TypeError, depending on the order of the layers (C47). Magnetic angles: declination is lost at the poles (C37).
* Euler inversion: no iterations end in UnboundLocalError; the misfit is not kept for several indices; weights enter
  squared in the merit function (C49, C77). Passing a numpy array of indices fails (not modelled).
* Oasis Montaj: the sign flag is ignored for 8-byte elements; unknown flags raise UnboundLocalError (C50).
* ICGEM: points off the grid are accepted and moved; `usecols` leaves the units of all columns (C54).
* Distances: `distance_spherical` subtracts a rounded cosine from one, so points closer than about 1e-8 radii are at
  computed distance zero and the point forward models divide by it (C92).
* Legendre: a maximum degree of zero writes out of bounds (C55).
* IGRF: heights that vary along a parallel use the colatitude of the first column in `grid`; the eastward component
  is zero at the poles, so the field there depends on the longitude of the request (C59, C60); objects keep the
  coefficients of their first use when the date is assigned later, and write out of bounds when the maximum degree is
  raised later; dates with a time zone raise TypeError (C83); arrays of one element give floats and one longitude for many latitudes raises ValueError (C84).
* Equivalent sources: memory estimates ignore custom points and the spherical estimate is that of single precision for such
  longitudes; integer longitudes truncate predictions; estimating the memory of a gradient-boosted model replaces its
  sources (C63, C65, C79). Without damping a survey at different heights may have a singular system (C93). Block averages further than a window from all data get zero coefficients
  without an error (C94). A damped fit to a single datum depends on the unit of length (C114). Gradient boosting can end with
  a larger error than no sources at all (C116).

## Tests of the theorems against wrong programs

`seeded/LOG.jsonl` has one line per edit of a model definition that was tried in a scratch copy: the definition, the
edit, the claim it breaks, the theorems whose proofs then fail, and the theorems that were tightened after an edit
went unnoticed.

## Theorems and what `Print Assumptions` lists

Sets of axioms: **0** none ("Closed under the global context"); **r** `sig_forall_dec`; **R** `sig_forall_dec` and
`functional_extensionality_dep`; **D** these and `sig_not_dec`; **K** these and `classic`.

| id | theorems (file; axioms) |
|---|---|
| C01 | C01_distance_is_euclidean, C01_unknown_system_rejected, C01_distance_is_a_metric, C01_distance_ignores_whole_turns, C01_geodetic_foot_point_on_ellipsoid (DistanceProps.v; D) |
| C02 | C02_point_gravity_is_newtonian, C02_union_of_sources, C02_order_irrelevant, C02_linear_in_masses (PointGravityProps.v; D) |
| C03 | C03_acceleration_is_gradient, C03_tensor_is_second_derivative (PointGravityProps.v; K); C03_tensor_symmetric, C03_laplace, C03_calls_succeed (PointGravityProps.v; D) |
| C04 | C04_radial_derivative (PointGravityProps.v; K); C04_potential_value, C04_horizontal_components_rejected, C04_only_potential_and_gz_return (PointGravityProps.v; D) |
| C05 | C05_schedule_independent, C05_fair_schedules_complete, C05_harmonica_loops_disjoint, C05_accumulation_order_fixed (ScheduleProps.v; 0); C05_point_mass_parallel_equals_serial (ScheduleProps.v; R) |
| C06 | C06_broadcast_rule (PointGravityProps.v; 0); C06_point_equal_shapes_partial, C06_point_broadcast_refuted, C06_point_broadcast_out_of_bounds_refuted (PointGravityProps.v; D); C06_prism_broadcast_refuted (PrismProps.v; R) |
| C07 | C07_unknown_system_rejected, C07_unknown_field_rejected, C07_wrong_number_of_masses_rejected, C07_point_arrays_not_checked_refuted (PointGravityProps.v; D) |
| C08 | C08_checks_accept_exactly, C08_same_checks_with_nan_numbers (TesseroidProps.v; R); C08_otherwise_value_error (TesseroidProps.v; K) |
| C09 | C09_whole_turns, C09_same_region (TesseroidProps.v; R) |
| C10 | C10_point_inside_is_an_error (TesseroidProps.v; R); C10_tesseroid_gravity_rejects_points_inside (TesseroidProps.v; K) |
| C100 | C100_sum_of_squares, C100_values, C100_noise, C100_continuation_decays (TransformNoiseProps.v; K) |
| C101 | C101_spacing_divides_the_globe (IgrfSamplingProps.v; R); C101_grid_determines_coefficients, C101_grid_determines_the_field (IgrfSamplingProps.v; K) |
| C102 | C102_inputs_are_rounded, C102_results_have_the_type (EqsDtypeProps.v; D) |
| C103 | C103_masses_move, C103_dipoles_move, C103_globe_turns, C103_scaling, C103_action_and_reaction, C103_dipole_reciprocity (PointMoveProps.v; D) |
| C104 | C104_deconvolution, C104_fair_weights (EulerFrameProps.v; R); C104_inversion, C104_order (EulerFrameProps.v; D) |
| C105 | C105_error_bound, C105_resolved_by_size, C105_cells_add, C105_converges (TesseroidLimitProps.v; K) |
| C106 | C106_error_bound, C106_converges (TesseroidVariableLimitProps.v; K) |
| C107 | C107_above, C107_cavity, C107_constant_density, C107_gravity, C107_gravity_variable (ShellProps.v; K) |
| C108 | C108_ellipsoids, C108_tesseroids_and_ellipsoids, C108_point_mass (LayeredProps.v; K) |
| C109 | C109_main_field_of_dipole, C109_main_field_of_magnet (CentralDipoleProps.v; K) |
| C11 | C11_small_tesseroids_tile, C11_independent_of_buffer_contents (TesseroidProps.v; K) |
| C110 | C110_poisson_relation, C110_equivalent_sources, C110_equivalent_sources_sph (PoissonProps.v; D) |
| C111 | C111_point_sources (TesseroidMirrorProps.v; D); C111_tesseroids, C111_tesseroids_of_variable_density, C111_without_checks, C111_pieces (TesseroidMirrorProps.v; K) |
| C112 | C112_enlarged_tesseroids, C112_pieces (TesseroidScaleProps.v; K) |
| C113 | C113_gravity, C113_magnetic (EllipsoidScaleProps.v; K) |
| C114 | C114_similar_surveys_partial, C114_similar_surveys_undamped, C114_similar_surveys_sph_partial (EqsScaleProps.v; K); C114_frames, C114_sources_follow, C114_sources_follow_sph, C114_one_datum_refuted (EqsScaleProps.v; D) |
| C115 | C115_profiles_partial, C115_high_above_partial, C115_long_wavelengths_partial, C115_upward_continuation_refuted, C115_lowpass_profile_refuted (TransformRangeProps.v; K) |
| C116 | C116_error_falls_partial, C116_error_grows_refuted, C116_weighted_misfit_falls_partial, C116_weighted_error_grows_refuted (EqsBoostErrorProps.v; D) |
| C12 | C12_distance_size_criterion, C12_radial_discretization_off (TesseroidProps.v; K) |
| C13 | C13_terminates_within_buffers, C13_only_overflow (TesseroidProps.v; K) |
| C14 | C14_field_of_point_masses_inside (TesseroidProps.v; K); C14_quadrature_is_eight_point_masses, C14_total_mass, C14_masses_positive (TesseroidProps.v; D) |
| C15 | C15_union_of_tesseroids, C15_union_returns_only_if_parts_do, C15_linear_in_density, C15_order_irrelevant, C15_null_tesseroids_removable, C15_null_tesseroids_harmless (TesseroidProps.v; K) |
| C16 | C16_pieces_are_a_pile_of_layers, C16_every_tesseroid_is_discretised (TesseroidDensityProps.v; D); C16_every_piece_meets_the_criterion (TesseroidDensityProps.v; R); C16_discretisation_ends (TesseroidDensityProps.v; K) |
| C17 | C17_constant_function, C17_null_tesseroid_refuted (TesseroidDensityProps.v; K) |
| C18 | C18_accepts_exactly_regular_axes, C18_one_cell_per_node, C18_no_cell_outside, C18_cells_centred_on_nodes, C18_cells_cover_the_boundaries, C18_cells_do_not_overlap, C18_neighbours_share_boundaries, C18_gap_bounded, C18_uneven_axis_leaves_gap_refuted, C18_descending_axis_inverts_cells_refuted (LayerProps.v; R) |
| C19 | C19_top_and_bottom, C19_scalar_reference, C19_nan_stays, C19_shapes_checked, C19_update_keeps_the_rest, C19_integer_surface_refuted (LayerProps.v; R) |
| C20 | C20_rejects_exactly_full_turns, C20_accepted_layers_do_not_overlap, C20_overlap_is_more_than_a_turn, C20_full_globe_rejected_refuted, C20_descending_overlap_accepted_refuted (LayerProps.v; R) |
| C21 | C21_sum_over_the_cells, C21_equals_prism_gravity, C21_uses_exactly_these_prisms, C21_missing_density, C21_descending_easting_refuted (LayerProps.v; R) |
| C22 | C22_evaluates_tesseroid_gravity, C22_missing_density (LayerProps.v; K); C22_uses_exactly_these_tesseroids (LayerProps.v; R) |
| C23 | C23_accepts_exactly_valid_prisms, C23_rejects_with_valueerror, C23_gravity_rejects, C23_gravity_error, C23_magnetic_rejects, C23_finite_boundaries (PrismProps.v; R) |
| C24 | C24_warns_exactly_at_singular_points, C24_disabled_checks_do_not_warn (PrismProps.v; R) |
| C25 | C25_keeps_exactly_the_others, C25_null_prisms_do_not_change_the_field, C25_magnetic_keeps_exactly_the_others (PrismProps.v; R) |
| C26 | C26_sum_over_prisms, C26_union_of_prisms, C26_order_irrelevant, C26_linear_in_density (PrismProps.v; R) |
| C27 | C27_prism_vector_is_components, C27_prism_component_value, C27_prism_linear_in_magnetization (PrismProps.v; R); C27_dipole_vector_is_components, C27_dipole_linear_in_moments (PrismProps.v; D) |
| C28 | C28_vertices_are_the_corners, C28_cells_point_to_their_prism, C28_one_cell_per_prism (PrismProps.v; 0) |
| C29 | C29_rotation_is_rigid, C29_positive_pitch_lifts_easting_axis, C29_directions, C29_sorted_frame (EllipsoidProps.v; D) |
| C30 | C30_lambda_is_confocal, C30_unsorted_rejected (EllipsoidProps.v; K) |
| C31 | C31_integrals, C31_derivatives, C31_nearly_equal_axes_partial, C31_nearly_equal_axes_refuted, C31_sphere_rejected (EllipsoidProps.v; K) |
| C32 | C32_gravity_field, C32_sphere_is_point_mass, C32_almost_sphere_refuted, C32_nearly_equal_axes_refuted, C32_nearly_equal_axes_partial (EllipsoidFieldProps.v; K) |
| C33 | C33_external_tensor, C33_external_tensor_refuted (EllipsoidFieldProps.v; K); C33_internal_factors, C33_internal_factors_are_integrals (EllipsoidProps.v; K) |
| C34 | C34_isotropic, C34_aligned_tensor, C34_anisotropic_partial, C34_anisotropic_refuted (EllipsoidFieldProps.v; K); C34_isotropic_field_computed (EllipsoidMagProps.v; K) |
| C35 | C35_failed_assignment_unchanged, C35_successful_assignment, C35_constructor, C35_well_typed, C35_positive_axes_partial, C35_bodies_have_positive_axes, C35_nonpositive_rejected, C35_positive_accepted, C35_nan_axis_refuted, C35_body_as_given (EllipsoidObjectProps.v; R); C35_no_body_with_nan (EllipsoidObjectProps.v; 0) |
| C36 | C36_gravity_superposition, C36_gravity_order, C36_magnetic_superposition, C36_magnetic_order (EllipsoidMagProps.v; K); C36_surface_points, C36_surface_size (EllipsoidMagProps.v; D) |
| C37 | C37_angles_to_vector_and_back, C37_vector_to_angles_and_back, C37_angles_in_range, C37_vertical_loses_declination_refuted (UtilsProps.v; K); C37_intensity_is_the_norm (UtilsProps.v; D) |
| C38 | C38_projection, C38_never_exceeds_the_magnitude, C38_linear (UtilsProps.v; D); C38_first_order_change_of_intensity (UtilsProps.v; K) |
| C39 | C39_responses, C39_no_amplification (TransformProps.v; K); C39_complementary, C39_zero_wavelength (TransformProps.v; D) |
| C40 | C40_continuations_add, C40_zero_displacement, C40_sampled_field (TransformProps.v; D); C40_no_amplification (TransformProps.v; K) |
| C41 | C41_upward_orders_add, C41_easting_orders_add_partial, C41_northing_orders_add_partial, C41_laplace, C41_easting_orders_add_refuted (TransformProps.v; D); C41_rate_of_continuation, C41_rate_of_continuation_at_every_level, C41_sampled_field (TransformProps.v; K) |
| C42 | C42_real_filters, C42_odd_sizes, C42_even_size_refuted (TransformProps.v; D) |
| C43 | C43_at_the_pole, C43_default_angles_refuted, C43_equator_refuted (TransformProps.v; D); C43_sampled_field (TransformProps.v; K) |
| C44 | C44_accepts_exactly, C44_rejects, C44_keeps_nodes, C44_regular_accepted, C44_pad_kwargs_refuted, C44_decreasing_coordinates_refuted (TransformGridProps.v; D) |
| C45 | C45_total_gradient_amplitude (TransformGridProps.v; D); C45_tilt_angle, C45_rejects (TransformGridProps.v; K) |
| C46 | C46_plate_formula, C46_nan_and_length, C46_continuous_in_height (UtilsProps.v; D); C46_infinite_slab (UtilsProps.v; K) |
| C47 | C47_columns_balance, C47_only_this_depth_balances, C47_never_fails_without_integer_arrays, C47_integer_arrays_refuted, C47_layer_order_refuted (UtilsProps.v; R) |
| C48 | C48_minimises_misfit, C48_succeeds, C48_recovers_exact_source, C48_covariance, C48_errors (EulerProps.v; R); C48_finds_point_mass, C48_finds_dipole (EulerProps.v; K) |
| C49 | C49_several_indices_keep_the_best, C49_several_indices_succeed, C49_recovers_exact_source, C49_errors, C49_no_iterations_refuted, C49_misfit_missing_for_several_indices_refuted (EulerProps.v; D); C49_finds_point_mass (EulerProps.v; K); C49_constructor (EulerProps.v; R) |
| C50 | C50_header_fields, C50_floats, C50_special_floats (OasisProps.v; R); C50_rejections, C50_sign_flag_refuted, C50_unbound_data_type_refuted (OasisProps.v; D) |
| C51 | C51_elements_at_nodes, C51_wrong_size (OasisProps.v; D); C51_float_dummies (OasisProps.v; R) |
| C52 | C52_slices, C52_blocks, C52_round_trip (OasisProps.v; 0); C52_compressed_file (OasisProps.v; D) |
| C53 | C53_rotated_coordinates (OasisProps.v; D) |
| C54 | C54_values_at_own_coordinates, C54_accepted_files_agree, C54_scattered_points_refuted (IcgemProps.v; R); C54_header (IcgemProps.v; 0); C54_usecols_units_refuted (IcgemProps.v; r) |
| C55 | C55_unnormalised_table, C55_schmidt_table, C55_full_table (LegendreProps.v; K); C55_degree_zero_refuted (LegendreProps.v; D) |
| C56 | C56_unnormalised_derivatives, C56_schmidt_derivatives, C56_full_derivatives, C56_colat_is_legendre (LegendreProps.v; K) |
| C57 | C57_schmidt_squares_add_to_one (LegendreProps.v; K) |
| C58 | C58_calendar (IgrfProps.v; 0); C58_epoch_dates, C58_linear_between_epochs, C58_after_the_last_epoch, C58_continuous_in_time, C58_rejected_dates, C58_unused_entries_are_zero (IgrfProps.v; R) |
| C59 | C59_minus_gradient, C59_grid_equals_points, C59_predict_equals_grid, C59_varying_height_refuted (IgrfProps.v; K); C59_rotation (IgrfProps.v; D) |
| C60 | C60_north_and_up_partial, C60_east_at_the_pole_refuted, C60_pole_depends_on_longitude_refuted (IgrfProps.v; K) |
| C61 | C61_prediction_is_sum_over_distance, C61_prediction_is_sum_over_distance_sph, C61_prediction_is_jacobian_times_coefficients, C61_prediction_is_jacobian_times_coefficients_sph, C61_prediction_before_fit_refused, C61_mismatched_inputs_refused, C61_fit_minimises_the_misfit, C61_fit_minimises_the_misfit_sph, C61_exact_fit_is_found (EqsProps.v; D) |
| C62 | C62_sources_below_the_data, C62_sources_below_the_data_gb, C62_sources_below_the_data_sph, C62_custom_points_are_used, C62_custom_points_are_used_gb, C62_custom_points_are_used_sph (EqsProps.v; D); C62_rejected_depths, C62_rejected_windows (EqsProps.v; R) |
| C63 | C63_estimate_is_the_jacobian_partial, C63_estimate_is_the_largest_jacobian_gb_partial, C63_estimate_is_the_jacobian_sph_partial, C63_custom_points_refuted, C63_single_precision_estimate_is_half (EqsProps.v; D) |
| C64 | C64_residue_after_every_window, C64_boosting_succeeds, C64_window_misfit_does_not_increase, C64_last_error_is_the_misfit, C64_single_window_is_the_plain_fit, C64_shuffling_permutes_the_windows (EqsProps.v; D) |
| C65 | C65_integer_longitudes_give_integers, C65_integer_coordinates_refuted (EqsProps.v; D) |
| C66 | C66_extent_along_parallel_partial, C66_wide_tesseroid_unsplit_refuted (TesseroidProps.v; K) |
| C67 | C67_full_turn_always_fails, C67_accepted_tesseroids_computed_refuted (TesseroidProps.v; K) |
| C68 | C68_nan_rejected_refuted (TesseroidProps.v; R) |
| C69 | C69_antimeridian_accepted_refuted (TesseroidProps.v; R) |
| C70 | C70_field_of_point_masses (TesseroidDensityProps.v; K) |
| C71 | C71_dipole_field_value (PrismProps.v; D); C71_minus_gradient_of_potential, C71_no_divergence (PrismProps.v; K) |
| C72 | C72_cutting_a_prism (PrismProps.v; R) |
| C73 | C73_density_length_checked (PrismProps.v; R); C73_dipole_arrays_not_checked_refuted (PrismProps.v; D) |
| C74 | C74_nan_boundary_refuted (PrismProps.v; R) |
| C75 | C75_pyvista_cells_and_properties (LayerProps.v; R) |
| C76 | C76_easting_exact, C76_northing_exact, C76_easting_border, C76_easting_local, C76_repeated_easting, C76_errors (TransformGridProps.v; D) |
| C77 | C77_step_satisfies_linearised_equations, C77_step_exists, C77_step_errors (EulerProps.v; R); C77_step_is_optimal, C77_fit_is_a_run, C77_merit_as_documented_refuted (EulerProps.v; D) |
| C78 | C78_every_line_is_stored (IgrfProps.v; r) |
| C79 | C79_estimate_keeps_predictions, C79_gb_estimate_moves_the_sources_refuted (EqsProps.v; D) |
| C80 | C80_grid_keywords, C80_profile_keywords (EqsProps.v; 0) |
| C81 | C81_poisson_relation (EllipsoidMagProps.v; K) |
| C82 | C82_boundary_conditions (EllipsoidMagProps.v; K) |
| C83 | C83_calls_are_independent, C83_last_assignment_counts, C83_time_zone_refuted, C83_degree_beyond_the_file (IgrfObjectProps.v; D); C83_date_after_use_refuted, C83_degree_after_use_refuted (IgrfObjectProps.v; K) |
| C84 | C84_predict, C84_scalar_longitude_refuted, C84_one_element_refuted (IgrfObjectProps.v; K); C84_scalar_height, C84_scalar_latitude (IgrfObjectProps.v; D) |
| C85 | C85_full_orthonormal, C85_schmidt_orthogonal, C85_plain_orthogonal (LegendreOrthoProps.v; K) |
| C86 | C86_no_sources (IgrfMaxwellProps.v; K) |
| C87 | C87_linear, C87_translation, C87_roll, C87_exchange (TransformSymmetryProps.v; D) |
| C88 | C88_point_sources (TesseroidTurnProps.v; D); C88_tesseroids, C88_tesseroids_of_variable_density, C88_without_checks (TesseroidTurnProps.v; K) |
| C89 | C89_predictions_are_potentials, C89_predictions_are_potentials_sph, C89_predictions_vanish_upwards, C89_fit_moves_with_the_survey, C89_gb_fit_moves_with_the_survey, C89_predictions_move_with_the_sources, C89_spherical_fit_turns (EqsFieldProps.v; D); C89_predictions_are_harmonic (EqsFieldProps.v; K) |
| C90 | C90_gravity_moves_with_the_bodies, C90_magnetic_moves_with_the_bodies, C90_only_the_solid_matters (EllipsoidMoveProps.v; K); C90_turn_about_the_vertical, C90_order_of_the_axes (EllipsoidMoveProps.v; D) |
| C91 | C91_point_mass, C91_far_limit, C91_point_dipole, C91_almost_sphere_refuted (EllipsoidFarProps.v; K) |
| C92 | C92_rounding_to_53_bits, C92_spherical_distance_partial, C92_spherical_distance_far, C92_spherical_distance_refuted (FloatProps.v; K); C92_without_rounding, C92_cartesian_distance, C92_predictions, C92_bouguer (FloatProps.v; D) |
| C93 | C93_level_survey_is_reproduced, C93_level_survey_is_reproduced_gb, C93_level_survey_is_reproduced_sph, C93_level_coefficients_are_unique, C93_level_coefficients_are_unique_sph (EqsExactProps.v; K); C93_level_survey_is_fitted, C93_level_survey_is_fitted_sph, C93_damped_coefficients_are_unique, C93_rugged_survey_may_not_be_reproduced (EqsExactProps.v; D) |
| C94 | C94_region_is_the_smallest (EqsRegionProps.v; R); C94_every_datum_meets_the_source_below, C94_all_data_and_sources_are_used, C94_windows_pair_neighbours, C94_far_sources_are_never_fitted (EqsRegionProps.v; D) |
| C95 | C95_gravity_measures_the_mass, C95_gravity_measures_the_mass_below, C95_gravity_is_integrable, C95_dipoles_have_no_flux, C95_bouguer_correction_is_an_endless_plate (FluxProps.v; K) |
| C96 | C96_predictions_are_linear, C96_fitted_values_are_linear, C96_predictions_are_linear_sph, C96_predictions_are_linear_gb, C96_order_does_not_matter, C96_order_of_the_survey, C96_misfit_is_bounded, C96_damping_trades (EqsLinearProps.v; D) |
| C97 | C97_constant, C97_level, C97_mean, C97_total_gradient_amplitude (TransformLevelProps.v; D); C97_tilt_angle (TransformLevelProps.v; K) |
| C98 | C98_buffers_suffice, C98_gravity_returns, C98_pieces_meet_the_ratio, C98_never_at_its_points, C98_no_acceleration_on_the_surface (TesseroidFitProps.v; K); C98_clear_above (TesseroidFitProps.v; D) |
| C99 | C99_point_potential, C99_point_gravity (MassBoundsProps.v; D); C99_tesseroid_potential, C99_tesseroid_gravity, C99_more_density (MassBoundsProps.v; K) |
