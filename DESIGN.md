# Formal model of transfinite: design

The code under study is /repo (salvipeter/transfinite, C++). It is read as text only.
The model is in `rocq/theories`, logical name `Verif`, Coq 8.16.1.

## Modelling decisions

- **Numbers.** A C++ `double` is a real number (`R` of the standard library). Rounding, infinities
  and NaN are not modelled, except that a division by zero is a distinct outcome (below), that
  C05 treats the rounding of `sqrt` explicitly (Flocq), and that C79 and C80 repeat some kernels with
  every operation rounded (RoundModel.v). The global constant `epsilon` is declared
  in the external library libgeom; the model takes it as a universally quantified positive real.
  Parts that use only comparisons or indices (meshes, nets, caches, the optimizer) are stated over
  arbitrary types and so apply to doubles directly.
- **Sizes.** `size_t` is `nat`. Where a C++ subtraction could wrap, the model writes the
  wrap-around outcome explicitly (for instance `j > degree_ - 2` for `degree_ < 2`). `binomial` is
  modelled with explicit reduction modulo 2^64.
- **Undefined behaviour.** Functions that index vectors or divide return `option`; `None` is an
  out-of-range access, a null pointer dereference, or a division by zero. Theorems about values
  have the form `f x = Some v`, so they include the absence of these errors.
- **Loops** become structural recursion or folds over `seq`. Accumulating loops become `sumn`-like
  functions adding in the same order.
- **Pointers.** Where sharing matters (curves shared between surfaces, copies of surfaces,
  neighbour pointers) there is an explicit heap. Elsewhere objects are values.
- **External code.** libgeom (`Point3D`, `BSCurve`, `TriMesh`, ...) is not in the repository.
  Points are tuples of reals; a boundary curve is a record of functions (`eval`, first derivative,
  arc length). Eigen solvers are oracles: a theorem may assume that the returned vector solves the
  system.

## Layers

1. `Base`: option monad, sums, cyclic indices, 2D and 3D vectors.
2. `*Model` files: the code, function by function, each definition citing file and lines.
3. `*Spec` definitions: small independent specifications (binomial by Pascal's rule, Bernstein
   polynomials in closed form, manifold mesh, convex polygon, ...).
4. `*Proofs` files: lemmas.
5. `Props*` files: the property theorems, closed by `exact`, with `Print Assumptions` beneath and
   an `Example` with a concrete non-trivial instance.

## Plan per property

| id | modelled | proof |
|----|----------|-------|
| C01 | `meshSize`, `parametersImpl`, `meshTopology` of `Domain` and `DomainCircle`, all branches | induction on loops, closed forms |
| C02 | same | closed form of the triangle list, arithmetic |
| C03 | same | closed form of directed edges, injectivity (`NoDup`), pairing of opposite edges |
| C04 | plus `onEdge` | characterisation of unpaired edges against `onEdge` |
| C05 | `onEdge` with IEEE double `sqrt` (Flocq rounding operator) | exactness of `sqrt` on squares |
| C06 | `parametersImpl`, `onEdge`, `edgePoint` over R | index decomposition of the generated list |
| C07 | same and `computeCenter` | explicit convex weights |
| C08 | same | signed area computation per triangle kind |
| C09 | domain cache as a state machine with arbitrary vertex payload | invariant over histories; witness for the circle domain |
| C10 | `Domain::update`, `toLocal`, `fromLocal` | field arithmetic |
| C11 | `intersectEdgeWithRay` with tolerance | case analysis; witness for backward hits |
| C12 | `DomainRegular::update`, `DomainCircular::update` | trigonometric product formula for signed areas |
| C13 | `DomainAngular::update` | sums, bounding box, sign analysis; witness |
| C14 | `binomial` over N modulo 2^64 | absorption identity; witness by computation |
| C15 | both `bernstein` overloads, array updates included | induction on the degree |
| C16 | `hermite` | polynomial arithmetic, derivatives from `Ranalysis` |
| C17 | `bezierElevate` | Bernstein product identity |
| C18 | `BCurve` evaluation, derivative control points, reversal | induction on derivative order |
| C19-C21 | `barycentric`, three types | area identities, cyclic telescoping |
| C22 | `mapToRibbon` of each parameterization | case analysis on the boundary |
| C23 | bilinear `mapToRibbon` | root formula |
| C24 | caches as maps with arbitrary payload | invariant over histories |
| C25 | `bisect` over arbitrary partial functions | induction on steps |
| C26-C28 | blend functions | sums of inverse squares |
| C29 | interpolants | vector arithmetic |
| C30-C31 | `RMF` | reflections preserve inner products |
| C32-C34 | ribbons | vector arithmetic, state machine |
| C35-C39 | `Surface` life cycle over a heap | invariants over histories; witnesses |
| C40-C44 | `eval` of each patch | composition of C22, C26-C29, C32 |
| C45-C52 | control nets, file formats, `gb-fit` | invariants, bijection of index enumerations |
| C53 | `SurfaceSPatch` | multinomial theorem |
| C54 | `SurfaceSuperD` | vector arithmetic |
| C55 | `NelderMead::optimize` over arbitrary arithmetic | loop invariant |
| C56-C57 | assembly loops of the harmonic patches | sums; trigonometry |
| C58-C59 | token and line level readers | induction on the token list |
| C60 | n-sided ribbons, perp-polar parameterization | vector arithmetic, witnesses |
| C61-C63 | polar, circular and overlap parameterizations | trigonometry, case analysis |
| C64-C65 | corner data, first order contact of patches with a ribbon | limits of difference quotients |
| C66 | `SurfaceHybrid` | weights of C45 with blends of C26 |
| C67 | `SurfacePolar` | refitted cubics at their ends |
| C68 | `fitWithOriginal` with a least squares oracle | normal equations, bijection of unknowns and positions |
| C69 | `parameterizePoints` with a closest triangle oracle | barycentric coordinates |
| C70-C71 | `fitClassA` with any optimizer, `arcLength` | Rodrigues rotations; quadrature |
| C72 | `SurfaceElastic` with an exact solver | energy of cubic beams, normal equations, regularity of the system |
| C73 | `printStatistics` | sorted lists, counting, invariant of the histogram loop |
| C74 | meshes and errors of the test driver | edges of strips, largest of samples, vector algebra |
| C75 | moving the boundary moves the patch | every definition commutes with the motion, up the call graph |
| C76 | contact of generalized Bezier patches | leading weights; corner points of the neighbours make up for the side's own |
| C77 | no side is special | lists turned by one place, plane motions, up the call graph; the elastic patch by uniqueness of its minimum |
| C78 | tangent planes of composite ribbon and midpoint patches | ribbons and corner terms cancel up to second order beside a side; blends of the others vanish quadratically |
| C79 | rounding in Bernstein values and Bezier curves | rounded model with an abstract rounding function; Flocq for binary64 |
| C80 | rounding in weights, ribbon parameters and the side based patch | quotients by a rounded sum; weights in [0,1] by monotonicity of rounding |
| C81 | fences of neighbouring patches | a frame step is a double reflection, the step back is its inverse; rotations commute with it |
| C82 | meshes of neighbouring patches | the rim edges of the mesh topology (C03) with the boundary theorems of each patch at the samples |
| C83 | plane boundaries | frames of a plane curve keep the normal; the projection to the plane is a linear map, so C75 applies with fixed data |
| C84 | patches are total on the closed domain | a point of the polygon is inside or on a side (C19, C22); sign analysis of the quadratic equation |
| C85 | the whole way from curves to reports | the call sequences of C45/C56/C69 started from given curves; C82 for the rims, C84 for the values, C44 and C74 for the errors |
| C86 | continuity and jumps of patches | ContSpec.v states limits of sequences of optional values; ContProofs.v goes through the code operation by operation; the jump comes from the two branches of blendSideSingular |
| C87 | four sides | FourSpec.v has the classical surfaces; all parameterizations agree on the square, the weights of a net are collected on the grid, and the corner blends are products of cubic polynomials |
| C88 | degree elevation with four sides | with C87 both patches are tensor products; the elevated net is the elevated grid except in the middle |
| C89 | refitting the elevated patch | a patch with zero residual exists (C88), so the fit has none (C68); tensor product surfaces with equal values on a large enough grid are equal (FourFit.v) |
| C90 | reversed boundaries | reindexing sides by n - i and corners by n - 1 - i (MirProofs.v), mirrored frames (MirParam.v), sums of heights on regular polygons (MirDomains.v), reversed nets and the disc (MirGB.v) |
| C91 | generalized Bezier runs of the driver | BezierTestModel.v composes the models of loading, meshing, elevation, projection and fitting in the order of the code; invariant `good` (shaped, consistent, right domain) through all steps; exchange argument for the tradeoff |
| C92 | command line and files of the driver | relation `asks` transcribed from the usage text, relation `says` for numbers in strings; suffix and digit arguments for names |
| C93 | the other runs of the driver (RunModel.v) | the loop lemmas of C85 for any surface of any history; composition with C48, C51, C70, C74, C82, C84 |
| C94 | stability of the patches (StabSpec.v) | bounds for interpolants and corrections, added up with the non-negative blends |

## Trusted base

- The kernel of Coq 8.16.1 and the reading of /repo written down in the `*Model` files and `SurfaceObj`.
- Axioms. Each theorem in a `Props*` file is followed by `Print Assumptions`. The axioms that occur are
  those of the standard library's real numbers and of classical logic:
  `ClassicalDedekindReals.sig_forall_dec`, `ClassicalDedekindReals.sig_not_dec`,
  `FunctionalExtensionality.functional_extensionality_dep`, `Classical_Prop.classic`.
  Theorems about meshes, caches and other index structures are closed under the global context.
  No axiom is added by this development and none comes from another library (Flocq is used for C05, C79 and C80,
  it adds none).
- The definitions in the `*Spec` files and those written in the statements themselves.
- libgeom is not in the repository. Its vector arithmetic is read as that of the real vector space, and
  `Matrix3x3::rotation` (C70) as Rodrigues' rotation.

## What is modelled where

| model file | code |
|------------|------|
| `MeshModel` | domain.cc, domain-circle.cc: mesh size, parameters, topology, edge test |
| `DomainModel` | domain*.cc: local frames, ray intersection, regular, circular and angular layouts, caches |
| `UtilModel` | utilities.cc, Bernstein/Bezier functions, bisection |
| `ParamModel` | parameterization*.cc |
| `RibbonModel` | rmf.cc, ribbon.cc, ribbon-*.cc (as functions of the data) |
| `SurfaceModel` | surface.cc, surface-*.cc: blend functions, corner interpolants, evaluation of the patches |
| `GBModel` | surface-generalized-bezier*.cc (default build), the Bezier part of io.cc, elevateDegree of gb-fit.cc |
| `SPatchModel` | surface-spatch.cc; the control net is an association list for std::map |
| `SurfaceObj` | surface.cc, domain.cc, ribbon.cc as objects with shared parts: settings, setupLoop, updates, copies |
| `SuperDModel` | surface-superd.cc |
| `NMModel` | nelder-mead.cc |
| `HarmonicModel` | surface-harmonic.cc, surface-biharmonic.cc; matrices are functions, the sparse solvers an oracle, sparsity reservations left out |
| `LinAlg`, `LinSolve`, `FEMSpec`, `FEMProofs`, `FEMSolve`, `FEMVoronoi`, `FEMBiharm`, `FEMPatch`, `FEMPatch2` | vocabulary and proofs for the above |
| `ReaderModel.v` | `readLOP`, `readOBJ`, `loadSPatch`, `loadSuperDModel` of `src/utils/io.cc` on token lists (files of numbers) and classified lines (OBJ); a variable without a value is `None` |
| `PolarModel.v` | `inverse` of `parameterization-polar.cc` (the loop over far sides, the 20 bisection steps); an uninitialised `q` is `None` |
| `HybridModel` | surface-hybrid.cc |
| `PolarPatchModel.v` | `surface-polar.cc`: `bezierRefit`, `polarRibbon`, `eval`; the LU solver is a parameter, `BSCurve(cpts)` is the Bezier curve of its control points |
| `GBFitModel.v` | `gb-fit.cc`: `fitWithOriginal` (lines 88-213); the LU and SVD solvers and the precision of `isApprox` are parameters, samples are given by what `mapToRibbons` returns for them |
| `GBParamModel.v` | `gb-fit.cc`: `parameterizePoints` (lines 68-86); the mesh, the parameters and `closestTriangle` of libgeom are parameters |
| `ClassAModel` | `src/utils/bezier.cc`: `fitClassA` (any optimizer, and Nelder-Mead), `arcLength`; `Matrix3x3::rotation` of libgeom is taken to be Rodrigues' rotation |
| `ElasticModel` | `surface-elastic.cc` (the system and its solution; the loop is in `SurfaceModel`) |
| `DriverModel` | `test/test.cc`: `printStatistics`, the meshes of `ribbonTest`, the errors of `showDeviations`, `deviationFromMesh` (numbers and meshes, not the text) |
| `MoveSpec` | no code of its own: moved curves, ribbons, corner data, worlds (records of `SurfaceObj`, `SurfaceModel`) |
| `JoinModel.v` | `Surface::eval(size_t)`: the mesh of a patch (surface.cc:142-151) |
| `ChainModel.v` | the call sequences of surfaceTest and cloudTest (test.cc:158-240, 309-324) from the given curves to the results, and writePCP (io.cc:81-97) |
| C95 | step functions over the disk | the results of a bisection with a bounded number of steps are in a finite list (PropsStep.v); a function with finitely many values that is continuous along a segment is constant on it, by halving the segment |

## Findings

Where the code does something else than its purpose suggests, the theorems state what it does:

- `binomial` wraps around for larger arguments (C14).
- `intersectEdgeWithRay` accepts hits behind the ray, and the convexity test of the angular domain accepts
  some concave polygons (C11, C13).
- The circular domain's cache and the caches of parameterizations can be stale (C09, C24).
- The barycentric parameterization falls back to a constant near corners; on triangles this breaks the
  boundary conditions there (C22).
- The midpoint patch overshoots within the tolerance of a corner, and for four sides the midpoint is not
  interpolated (C42, C44).
- `RibbonNSided` asks for the normal at negative parameters, and `SurfaceNSided` uses ribbon 3 only (C60).
- `resetRibbon` keeps an overridden normal fence (C34).
- `setupLoop` reverses shared curve objects in place, which breaks the loops of other surfaces (C36).
- `update(i)` before `update()` is an access out of range; after a curve change it leaves a stale neighbour or
  dereferences expired pointers (C38).
- Copies of surfaces share ribbons and the domain (C39).
- Generalized Bezier patches of degree 1 do not interpolate their boundary; in degree 2 the middle point of a
  boundary row is weighted by one side only (C47, `gbWeight`). The corner-based variant fails on triangles (C48).
- The weight setting is lost by saving, loading and degree elevation; saving before `setupLoop` writes an empty
  patch, elevating then divides by zero (C50, C52).
- `SurfaceSPatch::setupLoop` registers for ribbon i the boundary curve of
  domain side i+1, and inserts zero control points for missing boundary
  indices through `operator[]` (C53).
- Super-D patches with more than six sides blend two points of the boundary curve within the tolerance of a corner;
  evaluation uses the ribbons of the last `updateRibbons`, and before the first one it is an access out of range (C54).
- Nelder-Mead: when the first vertex is the highest one, the index of the second highest stays 0 too, and a reflected
  point worse than all others is accepted without contraction (C55).
- **Propagation is harmonic** (surface-biharmonic.cc:166-168). The inverse masses of boundary vertices are set to zero, which removes the coupling of the biharmonic operator with the boundary rows: the propagation system for points and normals has the solution of the harmonic system (C56_propagation).
- **Biharmonic patch of a degenerate harmonic patch** (surface-biharmonic.cc). If a triangle of the propagated surface has no area, the cotangents are divided by zero (C56_biharmonic, second part).
- C58: `readLOP` and `loadSuperDModel` never test the stream state. A truncated file is accepted: `readLOP` repeats the last curve, `loadSuperDModel` repeats the last point; if nothing has been read, uninitialised variables are used. `loadSPatch` is the only reader that throws.
- C59: `readOBJ` drops vertices after the first face, returns no points at all without faces, counts `vn` lines as vertices, and never clears the failure state of its string stream: after a `vt u v` line every later face is a copy of the previous one, or uninitialised if there was none. `f 1/1 2/2 3/3` as the first face uses uninitialised indices.
- **C61** `ParameterizationPolar::inverse` declares `q` without a value and sets it only if `intersectEdgeWithRay` succeeds for one of the far sides. That test compares a length with the absolute `epsilon`, so on a domain whose sides are all shorter than `epsilon` the bisection runs towards an uninitialised point (`C61_inverse_unset`).
- C65: the twists of updateCorner are difference quotients with step 1e-4, so the corner-based patches meet the tangent plane of a ribbon only up to an error linear in the distance with factor K/10000; it vanishes for cross derivatives that are linear along their side.
- C66: a hybrid patch of degree 1 does not interpolate its boundary: the row weights of the two sides overlap there (C66_degree_one). Within eps of the start of a side the value is the mean of two ribbons instead of the curve (C66_start).
- **C67** In `SurfacePolar::polarRibbon`, `N = D1 ^ D2` is not normalized, so `D1p = N ^ D1` has length sin of the angle and the base line at `psi = 1` does not point along the second chord. The patch misses each of its sides by `drift * s(1-s)^2/(s^2+(1-s)^2)` unless the chords meeting at the start of the side are perpendicular or parallel (`C67_side`, `C67_drift`; in `C67_example` a straight side of length 5 is missed by 1/5 for every degree). Besides, a side is followed only at the parameters `j/max_degree` unless its curve is a polynomial of at most that degree (`C67_polynomial`).
- `fitWithOriginal` copies two rows of the original patch whatever `fixed_rows` is (gb-fit.cc:103-107): for degree two the second row does not exist (`C68_degree_two`, out of range), for degree one nothing is copied (`C68_corners_lost`; with the default of two fixed rows it even writes out of range, `C68_degree_one`), and with three fixed rows the third is uninitialized (`C68_three_rows`). With `fixed_rows` = 0 the neighbours `row - 1` and `col - 1` wrap around and their weights overwrite that of the central control point. The squared-weights setting of the original is not copied, so a patch with squared rational weights is fitted with default ones.
- `parameterizePoints` weights with unsigned areas: a point whose projection falls beside its closest triangle gets a parameter well inside the triangle (`C69_beside`), and a degenerate triangle divides by zero (`C69_degenerate`).
- `BCurve::fitClassA`: the rotation angle is computed by `acos` and is never negative, but for search angles with a negative cosine the axis points to the other side, so the polygon turns away from the second direction (C70_polygon: then the last leg is no positive multiple of it, even when the target value is zero). Parallel directions (marked as a TODO in the code), equal points and degrees below two divide by zero; degree 0 also writes out of range (C70_undefined). After the last round (degree 50 or more) the second point is put at the end whatever the error is, so the last leg can differ from its rotated and scaled predecessor by sqrt(2 err) |pb - pa| with any err.
- C73: `printStatistics` reads behind the end for one to three numbers, calls the element after the middle the second quartile, and its histogram advances by one bin per number at most, so sparse data are shown as uniform.
- C74: `deviationFromMesh` measures the distance to the plane of the closest triangle; points beyond the boundary of the mesh can have deviation 0. With resolution 0 the loop of the fence wraps around.
- C75: with opposite normals at the two ends of a side (an inner and an outer corner), the frame always makes its half turn in the same direction (rmf.cc:44-48), so the mirror image of the curves does not give the mirror image of the patch; all other inputs do.
- C81: between the 101 sample parameters the fences of two neighbouring patches on a common curve differ, because each is continued from the sample before the parameter in its own direction (rmf.cc:50-57); the two patches meet with a common tangent plane only at the samples (`C81_between`).
- Meshes of neighbouring patches match only at equal resolutions: with different ones the finer mesh has extra vertices on the common curve (C82_resolutions).
- C83: a side between an outer and an inner corner of a plane boundary (an L-shape, say) has opposite normals at its ends; the fence makes a half turn and the ribbon leaves the plane (ribbon.cc:68-88, rmf.cc:44-48).
- C84: in a thin convex quadrilateral (height of the order of the square root of epsilon) the cut-off of the discriminant (parameterization-bilinear.cc:38-40) gives a side parameter of 3 and a division by zero at a vertex, so the side based patch has no mesh.
- C85: on a side whose neighbours run in the same direction (as the side between the outer and the inner corner of an L) the default handler normalises a zero vector, so nothing useful is written for such boundaries; the classes with simple ribbons are not affected.
- C86: the weights switch to exactly one as soon as a distance is below the tolerance, so the side based patch jumps along the line at that distance by a small vector that is not zero for skew boundaries.
- C87: generalized Bezier patches of degree 2 with four sides are not biquadratic surfaces, cubic ones with three sides have a negative central weight, and C0 Coons patches with four sides are Coons patches only for cubic curves.
- C88: degree elevation changes patches of odd degree with four sides, as the central control point is replaced by the mean of its neighbours.
- C90: the bilinear parameterization prefers a direction of the boundary where the heights of the neighbouring sides differ by less than the tolerance (parameterization-bilinear.cc:32-37): it then solves a linear equation without the quadratic term, and from the other direction another one, which has the mirrored solution in the middle of the side only; at the apex of an equilateral triangle both directions report s = 0 for the opposite side. The corner data of a loop with a gap are taken from the first curve, so they depend on the direction as well (C90_corners_gap). A generalized Bezier patch of degree 1 or 2 depends on the direction everywhere (C90_bezier_low): surface-generalized-bezier.cc tests `j < 2` before `j > degree - 2`, so a control point in the first two and the last two columns at once is weighted with the distance from the previous side only.
- C91: `meshFitTest` overwrites its own input when called with the surface names bezier-fitted, bezier-smooth02, bezier-smooth05, bezier-smooth10 or with the mesh names listed in C91_mesh_fit_names; the control nets of the smoothed fits are written as bezier-smoothXX.gbp while their meshes are bezier-fitted-smoothXX.obj. A nearest triangle of zero area makes the parameterization of a data point divide by zero (C91_degenerate). For patches of degree one or two `showDeviations` reads the second row of a control net that has one row only (test.cc:108-109): undefined behaviour after the first of the thirteen files (C91_low_degree).
- C92: the fullness given to `superd` is stored in a global that nothing reads (test.cc:33, 532): the patches always have fullness 1/2, and the usage text does not mention the argument. A resolution that is not a number is taken as 0 without a message, and `ribbonTest` then runs out of memory; a negative one becomes a huge unsigned number. A model whose name is one of the nine modes cannot be shown. `class-a` ignores its model name.
- C93: `bezier-corner` stops at an assertion for even degrees and reads beyond its net for degree one; for three sides the rim of the written mesh is not the boundary. The domain of this patch is a `DomainCircle`, which never fills its vertices or its center, so the tangential error printed for it has no meaning. `class-a` stops for every loop with a straight side, since parallel end tangents have no axis.
- C94: the twists are one-sided difference quotients with step 1.0e-4, so an error of the cross derivatives enters the corner based patches with the factor 2.0e4 (C94_twist_sharp); with `use_gamma_` a ninth of it reaches the surface. The side based patch does not have this amplification.
- C95: the circular parameterization stops its bisection at the tolerance, so the distances, and the corner-based generalized Bezier patches evaluated from them, are step functions inside the disk; they are not continuous, and difference quotients over steps near the tolerance are meaningless.

## Not modelled

- Floating point rounding, except: `sqrt` in C05; Bernstein values, Bezier curves and affine combinations in C79; normalised weights, singular side and corner blends, barycentric ribbon parameters and the side based patch in C80 (RoundModel.v). There, too, overflow, infinities, NaN and the sign of zero are not represented, the compiler is assumed not to contract or reorder operations, and `std::pow` is an oracle.
- Allocation failure, file system errors.
- Of the test driver `src/test`: timing and text output (what is computed by `ribbonTest`, `showDeviations`, `printStatistics` and `deviationFromMesh` is modelled; for `bezier-corner` and `hybrid` only what `showDeviations` reads).
- Eigen and libgeom internals.
- The text layout of files (numbers and lines are already split into tokens), and opening files that do not exist.

## Seeded errors

`seeded/LOG.jsonl` has one line for each edit of a definition that was tried in a scratch copy. `first_failing_lemmas` are proofs that Coq rejected. Rejected proofs were admitted in the scratch copy and the build was continued. `theorems_failed` are the theorems among these, and the theorems that depend on such a lemma by the references in Coq's `.glob` files. Uses of a lemma inside a tactic or a hint are not in these files, so the list can miss some theorems. Theorems added after an edit was tried are not in its list, except under `theorems_tightened`.
