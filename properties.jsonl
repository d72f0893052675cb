{"id": "C01", "title": "Shell metric at height z is the metric of the shell basis at height z", "statement": "At every surface point and every through-thickness coordinate z, the covariant metric reported by the material evaluation (mid-surface metric minus 2z times curvature plus z^2 times the third fundamental form) equals the Gram matrix of the covariant basis vectors used at that height, so strains and stresses computed from the one are compatible with basis transformations computed from the other.", "quantifier": "for all first and second surface derivatives with linearly independent tangents, all z in R, all index pairs", "why_tests_cant": "the identity is over a continuum of geometries, curvatures and heights; tests use a few flat or cylindrical patches where most terms vanish", "anchors": ["src/gsMaterialMatrixBaseDim.hpp: _computeMetricUndeformed_impl, _computeMetricDeformed_impl, _getMetricUndeformed_impl, _getMetricDeformed_impl"]}
{"id": "C02", "title": "Covariant and contravariant shell bases are dual", "statement": "At every point and height where the metric is invertible, the contravariant basis produced for stress and stretch transformations is dual to the covariant basis (g_i . g^j = delta_ij) and its Gram matrix is the inverse metric.", "quantifier": "for all 3x3 bases with non-zero Gram determinant", "why_tests_cant": "requires an algebraic identity over all bases; a test checks finitely many", "anchors": ["src/gsMaterialMatrixBaseDim.hpp: _getMetricDeformed_impl, _getMetricUndeformed_impl"]}
{"id": "C03", "title": "Rigid motion produces no strain and superposed rotation does not change the response", "statement": "If the deformed surface derivatives are the undeformed ones rotated by any rotation, then the first and second fundamental forms, the metric at every height, and hence the strain, are unchanged (strain zero, area ratio one); rotating an already deformed configuration leaves every material input (metric, inverse metric, area ratio) unchanged.", "quantifier": "for all rotations (orthogonal, determinant one), all surface derivatives with independent tangents, all z", "why_tests_cant": "quantifies over the whole rotation group and all geometries", "anchors": ["src/gsMaterialMatrixBaseDim.hpp: _computeMetricDeformed_impl, _getMetricDeformed_impl, _getMetric"]}
{"id": "C04", "title": "The area ratio J0^2 is the squared ratio of surface measures and the guard on it never fires on regular geometry", "statement": "The squared in-plane Jacobian obtained from metric determinants equals the squared ratio of the areas spanned by the deformed and undeformed shell bases at that height; it is non-negative for every regular geometry so the internal guard (ratio >= 0) never rejects one.", "quantifier": "for all pairs of bases and heights with non-degenerate undeformed basis", "why_tests_cant": "guard reachability and the identity concern all geometries", "anchors": ["src/gsMaterialMatrixBaseDim.hpp: _getMetric"]}
{"id": "C05", "title": "Linear (St.Venant-Kirchhoff) material tensor has minor and major symmetry", "statement": "The fourth-order tensor of the linear material has both minor symmetries and the major symmetry, so the 3x3 Voigt matrix delivered to the assembler is symmetric.", "quantifier": "for all material parameters and all symmetric contravariant metrics, all indices", "why_tests_cant": "universal over parameters and geometry", "anchors": ["src/gsMaterialMatrixLinear.hpp: _Cijkl, _eval3D_matrix"]}
{"id": "C06", "title": "Linear material tensor is the exact plane-stress condensation of the 3D isotropic law", "statement": "The in-plane tensor returned by the linear material equals the 3D isotropic tensor with Lame parameters (lambda, mu) after eliminating the through-thickness strain by the zero transverse stress condition; equivalently its coefficient is E nu/(1-nu^2).", "quantifier": "for all E, nu with the denominators non-zero, all metrics, all indices", "why_tests_cant": "symbolic identity over all parameters", "anchors": ["src/gsMaterialMatrixLinear.hpp: _Cijkl"]}
{"id": "C07", "title": "Linear material is positive definite on its admissible parameter range", "statement": "For E>0 and -1<nu<1 (nu not 1/2, which is rejected) the strain energy of any non-zero in-plane strain is strictly positive.", "quantifier": "for all E>0, admissible nu, all positive definite metrics, all non-zero symmetric strains", "why_tests_cant": "inequality over a continuum; a test samples", "anchors": ["src/gsMaterialMatrixLinear.hpp: _Cijkl, eval3D_matrix"]}
{"id": "C08", "title": "Linear material: stress resultants equal the exact through-thickness integrals of the Kirchhoff-Love stress", "statement": "With the (default) constant-in-thickness integration of the linear material, the membrane force vector, moment vector and the matrices A,B,C,D equal the exact integrals over the thickness of S(z), z S(z), C, z C, z C, z^2 C for the stress of the strain eps + z kappa; in particular B=C=0, D = t^2/12 A.", "quantifier": "for all thicknesses t, strains, curvature changes and tensors", "why_tests_cant": "exactness of an integral for all inputs is a theorem, not a sample", "anchors": ["src/gsMaterialMatrixIntegrate.hpp: eval_into, multiplyZ_into", "src/gsMaterialMatrixLinear.hpp: eval3D_vector, _E", "src/gsMaterialMatrixIntegrate.h: getMoment"]}
{"id": "C09", "title": "Moment shortcuts for constant and affine integrands agree with exact integration", "statement": "The closed forms used for integrands that are constant, or affine, in the thickness coordinate equal the exact integral of z^m f(z) over [-t/2,t/2] for every moment m.", "quantifier": "for all moments m in N, thicknesses t, and constant / affine integrands", "why_tests_cant": "unbounded in m; parity case split is easy to get wrong for untested m", "anchors": ["src/gsMaterialMatrixIntegrate.hpp: multiplyZ_into, multiplyLinZ_into"]}
{"id": "C10", "title": "Numerical through-thickness integration is exact up to the rule's degree and additive in its integrand", "statement": "For a quadrature rule on [-1/2,1/2] that is exact for polynomials of degree d, the code's sum over thickness points reproduces the integral of z^m f(z) over [-t/2,t/2] exactly whenever f is a polynomial with deg f + m <= d; in particular the default rule reproduces the SvK and TFT shortcuts.", "quantifier": "for all quadrature rules exact to degree d, all t, all polynomials and moments within the degree bound", "why_tests_cant": "quantifies over rules, polynomials and thicknesses", "anchors": ["src/gsMaterialMatrixIntegrate.hpp: integrateZ_into, multiplyZ_into, multiplyLinZ_into"]}
{"id": "C11", "title": "Output columns of thickness evaluations are never mixed up", "statement": "When a quantity is evaluated at a batch of surface points times a set of thickness coordinates, the column written for (thickness j, point k) is j*nPoints+k: the map is a bijection onto the allocated columns, so no value is overwritten and none is left unset, and batched evaluation equals evaluating each pair on its own (for the quantities that recompute their metric per pair).", "quantifier": "for all numbers of points and thickness coordinates, all (j,k)", "why_tests_cant": "index arithmetic over all batch sizes", "anchors": ["src/gsMaterialMatrixBaseDim.hpp: eval3D_deformation, eval3D_strain, eval3D_stretch", "src/gsMaterialMatrixLinear.hpp: eval3D_matrix, eval3D_vector"]}
{"id": "C12", "title": "Principal strain/stress of a batch do not mix points", "statement": "Principal strains (and principal stresses of the linear and nonlinear material) of a batch should equal those of each point alone. This holds for batches whose points all have the same metric and fails otherwise: the basis vectors of the last processed point are applied to every column.", "quantifier": "for all batches; with an explicit counterexample batch of two points", "why_tests_cant": "unit tests evaluate one point, or patches with constant metric, where the defect is invisible", "anchors": ["src/gsMaterialMatrixBaseDim.hpp: eval3D_pstrain, _evalPStrain", "src/gsMaterialMatrixLinear.hpp: eval3D_pstress", "src/gsMaterialMatrixNonlinear.hpp: eval3D_pstress"]}
{"id": "C13", "title": "Batched basis-transform queries stay within their allocated output", "statement": "Evaluating the spec2cov / spec2con / cov2cart / con2cart transformations (and TFT theta / gamma) writes only inside the allocated result. This holds exactly for a single thickness coordinate per point (or an empty batch); for more than one the write is out of bounds.", "quantifier": "for all numbers of points and thickness coordinates", "why_tests_cant": "memory safety over all sizes; tests use one thickness coordinate", "anchors": ["src/gsMaterialMatrixBaseDim.hpp: eval3D_spec2cov, eval3D_spec2con, eval3D_cov2cart, eval3D_con2cart", "src/gsMaterialMatrixTFT.hpp: eval3D_theta, eval3D_gamma"]}
{"id": "C14", "title": "Tension-field classification is total, exclusive and monotone", "statement": "Every principal stress/strain pair is classified as exactly one of taut, slack, wrinkled; taut whenever the smaller principal value is positive; slack only if the larger principal value is negative; increasing the smaller principal value never turns a taut point into a non-taut one (strictly positive side).", "quantifier": "for all principal pairs, for each of the three criteria", "why_tests_cant": "case analysis over the plane of principal values including the tolerance band", "anchors": ["src/gsMaterialMatrixBaseDim.hpp: _tensionField", "src/gsMaterialMatrixBase.h: options TensionField"]}
{"id": "C15", "title": "Stretch evaluation near the identity", "statement": "Principal stretches are the square roots of the eigenvalues of the deformation tensor. The fast path for (near-)undeformed states is taken whenever the in-plane trace equals 2; for every trace-2 state other than the identity it reports unit stretches although the true ones differ.", "quantifier": "for all deformation tensors; exact characterisation of when the fast path is wrong", "why_tests_cant": "the wrong states form a measure-zero curve tests do not hit", "anchors": ["src/gsMaterialMatrixBaseDim.hpp: _evalStretch"]}
{"id": "C16", "title": "Laminate stiffness equals the exact through-thickness integral over the ply stack", "statement": "For a composite of any number of plies with given thicknesses, angles and ply matrices, the matrices A, B(=C), D equal the exact integrals of 1, z, z^2 times the ply stiffness over the stack, measured from the mid-plane.", "quantifier": "for all lists of plies", "why_tests_cant": "unbounded number of plies; induction needed", "anchors": ["src/gsMaterialMatrixComposite.hpp: eval3D_matrix"]}
{"id": "C17", "title": "Symmetric laminates have no membrane-bending coupling", "statement": "Reversing the stacking order negates B and keeps A and D; hence a lay-up that reads the same from both sides has B=0.", "quantifier": "for all lay-ups", "why_tests_cant": "unbounded number of plies", "anchors": ["src/gsMaterialMatrixComposite.hpp: eval3D_matrix"]}
{"id": "C18", "title": "Ply rotation is a group action preserving symmetry and energy", "statement": "Rotating a ply stiffness by phi keeps it symmetric; rotating by 0 or by pi is the identity, rotations compose, a rotated isotropic ply is unchanged, and trace-like invariants (Q11+Q22+2Q12) are preserved.", "quantifier": "for all angles and ply matrices", "why_tests_cant": "continuum of angles", "anchors": ["src/gsMaterialMatrixComposite.hpp: _transformationMatrix / eval3D_matrix (Tmat)"]}
{"id": "C19", "title": "Composite stress resultants include the coupling only if the lay-up is symmetric", "statement": "The membrane force and moment returned by the composite equal the laminate response A eps + B kappa and C eps + D kappa exactly when the omitted coupling products B kappa and C eps vanish (always for symmetric lay-ups); for an unsymmetric lay-up the returned resultants differ from the response whose tangent is assembled.", "quantifier": "for all lay-ups, strains and curvatures", "why_tests_cant": "holds for every symmetric lay-up tests use; fails elsewhere", "anchors": ["src/gsMaterialMatrixComposite.hpp: eval3D_vector, eval3D_matrix"]}
{"id": "C20", "title": "Orthotropic ply constructors deliver the documented symmetric matrix", "statement": "The 2D orthotropic constructor accepted by its own consistency check (nu_yx E_xx = nu_xy E_yy) gives a symmetric matrix that inverts the compliance; the 9-argument raw constructor places each argument at the position its name says exactly when G12 = G21 (the two are swapped otherwise).", "quantifier": "for all parameter values", "why_tests_cant": "symbolic identity; the swap is invisible for symmetric data", "anchors": ["src/getMaterialMatrix.h: gsCompositeMatrix, gsCompositeMatrixRaw"]}
{"id": "C21", "title": "Undeformed state is stress free for every hyperelastic law", "statement": "For neo-Hookean, Mooney-Rivlin, extended neo-Hookean and Ogden materials, incompressible and compressible, in every implementation, the stress formula vanishes at the undeformed state.", "quantifier": "for all parameters and undeformed metrics", "why_tests_cant": "universal over parameters and geometry", "anchors": ["src/gsMaterialMatrixNonlinear.hpp: _Sij_impl, _Sii_impl"]}
{"id": "C22", "title": "Analytical and generalized implementations give identical stresses", "statement": "For neo-Hookean and Mooney-Rivlin (incompressible and compressible) and extended neo-Hookean the Analytical and Generalized implementations return the same in-plane stress for every state.", "quantifier": "for all parameters, undeformed and deformed metrics, thickness stretch", "why_tests_cant": "equality of two formula families on all inputs; tests compare a few states in floating point", "anchors": ["src/gsMaterialMatrixNonlinear.hpp: _Sij_impl (Analytical, Generalized), _dPsi_impl"]}
{"id": "C23", "title": "Analytical and generalized implementations give identical tangents", "statement": "Same for the material tensor.", "quantifier": "for all parameters, undeformed and deformed metrics, thickness stretch, indices", "why_tests_cant": "as C22", "anchors": ["src/gsMaterialMatrixNonlinear.hpp: _Cijkl_impl, _Cijkl3D_impl, _d2Psi_impl"]}
{"id": "C24", "title": "Spectral implementation agrees with the analytical one", "statement": "Whenever the stretches are computed from the eigen-decomposition (i.e. not by the trace shortcut of _evalStretch), the Spectral implementation of neo-Hookean, Mooney-Rivlin and extended neo-Hookean materials returns the same stress (including the transverse one), the same (condensed) tangent and the same C3333 as the Analytical implementation. When the shortcut fires the stress may be wrong, even in sign.", "quantifier": "for all geometries, deformed metrics, eigen-decompositions, parameters and thickness components", "why_tests_cant": "continuum of states; the eigenvectors are only determined up to sign/rotation", "anchors": ["src/gsMaterialMatrixNonlinear.hpp: _Sij_impl (Spectral), _Cijkl_impl (Spectral), _Cijkl3D_impl (Spectral), _Sa_impl, _dPsi_da_impl, _Cabcd_impl", "src/gsMaterialMatrixBaseDim.hpp: _evalStretch"]}
{"id": "C25", "title": "Incompressible tangent is the derivative of the stress", "statement": "For incompressible neo-Hookean and Mooney-Rivlin materials the material tensor is the exact derivative of the stress with respect to the strain at every state, so Newton iterations use the true Jacobian.", "quantifier": "for all admissible states, all symmetric strain directions, all parameters", "why_tests_cant": "derivative identity at every point", "anchors": ["src/gsMaterialMatrixNonlinear.hpp: _Sij_impl, _Cijkl_impl (Analytical)"]}
{"id": "C26", "title": "Compressible 3D tangent is the derivative of the stress", "statement": "For compressible neo-Hookean and extended neo-Hookean (and Mooney-Rivlin) the 3D tensor is the derivative of the 3D stress with respect to all components of C including c33.", "quantifier": "for all admissible states, directions and parameters", "why_tests_cant": "derivative identity at every point", "anchors": ["src/gsMaterialMatrixNonlinear.hpp: _Sij_impl, _Cijkl3D_impl"]}
{"id": "C27", "title": "Static condensation gives the plane-stress tangent", "statement": "The condensed tensor is the derivative of the in-plane stress along any path on which the transverse stress stays zero, and it inherits the symmetries of the 3D tensor.", "quantifier": "for all differentiable paths with S33=0 and C3333 non-zero", "why_tests_cant": "path quantification", "anchors": ["src/gsMaterialMatrixNonlinear.hpp: _Cijkl_impl (compressible)"]}
{"id": "C28", "title": "Hyperelastic tangents have minor and major symmetry", "statement": "All hyperelastic in-plane tensors (Analytical, Generalized, incompressible and compressible, condensed) have minor and major symmetries when the metrics are symmetric.", "quantifier": "for all states, parameters and indices", "why_tests_cant": "universal over states", "anchors": ["src/gsMaterialMatrixNonlinear.hpp: _Cijkl_impl, _Cijkl3D_impl"]}
{"id": "C29", "title": "A thickness stretch returned by the compressible iteration satisfies the plane-stress residual test", "statement": "Whenever the through-thickness Newton iteration returns, the last computed correction is below the tolerance; it performs at most 100 iterations; otherwise it rejects (throws) rather than returning.", "quantifier": "for all stress/tangent functions, all starting states", "why_tests_cant": "loop invariant over all response functions", "anchors": ["src/gsMaterialMatrixNonlinear.hpp: _eval3D_Compressible_C33"]}
{"id": "C30", "title": "Convergence domain of the plane-stress iteration for the extended neo-Hookean law", "statement": "For the extended neo-Hookean law the iteration error squares in each step; it converges exactly when the area ratio is above 2mu/(4mu+lambda), and the limit is the closed-form root; below it the iterates diverge although a positive solution exists.", "quantifier": "for all mu>0, lambda>=0, area ratios, all iteration counts", "why_tests_cant": "asymptotic statement over unbounded iterations", "anchors": ["src/gsMaterialMatrixNonlinear.hpp: _eval3D_Compressible_C33, _Sij_impl (NH_ext)"]}
{"id": "C31", "title": "Derivative of the tangent (dmatrix) of the incompressible neo-Hookean law", "statement": "The analytic third-order output used by the tension-field model is the exact derivative of the material tensor.", "quantifier": "for all states and directions", "why_tests_cant": "derivative identity", "anchors": ["src/gsMaterialMatrixNonlinear.hpp: dCijkl, eval3D_dmatrix"]}
{"id": "C32", "title": "Wrinkled tension-field stress is uniaxial tension", "statement": "For every wrinkling angle the modified stress has no component along the wrinkling direction; at a root of the wrinkling equation the shear component vanishes too, so the stress is uniaxial along the tension direction, and the modified strain differs from the original only by a wrinkling strain in the wrinkling direction.", "quantifier": "for all angles, stresses, strains and symmetric tensors with non-zero stiffness in the wrinkling direction", "why_tests_cant": "continuum of angles and states", "anchors": ["src/gsMaterialMatrixTFT.hpp: gamma, objective, _compute_S, _compute_E"]}
{"id": "C33", "title": "Derivative of the wrinkling equation with respect to the angle", "statement": "The expression used for d f/d theta equals the exact derivative of the wrinkling equation at every root of it (and, in general, differs from it by an explicit multiple of f).", "quantifier": "for all angles and states", "why_tests_cant": "derivative identity", "anchors": ["src/gsMaterialMatrixTFT.hpp: _compute_C, dgammadT, dfdT"]}
{"id": "C34", "title": "Tension-field tangent for a linear inner material", "statement": "The tangent returned for wrinkled points of a linear inner material is the derivative of the returned stress exactly when the coupling term n2.C.n1 (or its multiplier) vanishes; an explicit state shows the sign error otherwise.", "quantifier": "for all states", "why_tests_cant": "unit tests only exercise the state families in which the coupling is small", "anchors": ["src/gsMaterialMatrixTFT.hpp: _compute_C (linear)"]}
{"id": "C35", "title": "Tension-field dispatch", "statement": "Taut points return the inner material's value unchanged, slack points the inner value times the slack multiplier, wrinkled points the modified value, and any other classification is rejected; the result of column j*n+k depends on no other column's classification.", "quantifier": "for all classifications and batches", "why_tests_cant": "all batches", "anchors": ["src/gsMaterialMatrixTFT.hpp: eval3D_matrix, eval3D_vector"]}
{"id": "C36", "title": "Root finding: bracketing search", "statement": "For a continuous function with f(a)<0<f(b) on the search interval, whenever the Brent search reports success the returned angle is within twice the tolerance of a true root. With f(a)>0>f(b) this guarantee fails (explicit counterexample).", "quantifier": "for all continuous functions and intervals, all tolerances", "why_tests_cant": "quantifies over functions", "anchors": ["src/gsMaterialMatrixTFT.hpp: findRootBrent"]}
{"id": "C37", "title": "Root finding: the bisection fallback does not bisect", "statement": "The bisection fallback returns (b-a)/2 whatever the function is; iterations after the first change nothing, so on an interval [0,b] wider than twice the tolerance it fails for every function and budget, and on a symmetric interval it reports success for functions that have no root.", "quantifier": "for all functions, intervals, tolerances and iteration budgets", "why_tests_cant": "unbounded iteration budget, all functions", "anchors": ["src/gsMaterialMatrixTFT.hpp: objective::findRootBisection (1069-1090)"]}
{"id": "C38", "title": "Explicit tension-field mode restores the inner material's configuration", "statement": "In explicit mode the inner material's deformed geometry is temporarily replaced by the frozen one; after every evaluation that completes, the inner material has its original deformed geometry again; if the evaluation throws, it keeps the frozen one.", "quantifier": "for all histories and all throwing points", "why_tests_cant": "exception schedule", "anchors": ["src/gsMaterialMatrixTFT.hpp: _compute_TF"]}
{"id": "C39", "title": "rhs() after an assembly reflects that assembly's loads", "statement": "After every successful assembly rhs() returns the vector of that assembly, for every call history in which point loads are never cleared once they were assembled; after clearing them rhs() keeps returning the vector of the last assembly that had point loads, also after failed assemblies.", "quantifier": "for all call histories", "why_tests_cant": "history property; tests use a fresh assembler", "anchors": ["src/gsThinShellAssembler.h: rhs", "src/gsThinShellAssembler.hpp: assemble, assembleVector, setPointLoads"]}
{"id": "C40", "title": "Registered pressure and foundation survive configuration changes", "statement": "A registered pressure or foundation stays active until the assembler is re-initialised; changing the continuity option, the geometry, the basis or the space basis silently deactivates both, point loads survive. Changing the continuity through options() takes effect inside the next assembly, which then also drops a pressure registered after the change, and in assembleMatrix scatters into a system sized for the old numbering.", "quantifier": "for all call histories", "why_tests_cant": "history property", "anchors": ["src/gsThinShellAssembler.hpp: _initialize, _getOptions, setOptions", "src/gsThinShellAssembler.h: setPressure, setFoundation, setUndeformed, setBasis, options"]}
{"id": "C41", "title": "Assembly status reporting", "statement": "After matrix/vector assembly the returned status is Success iff the assembly did not throw. Mass assembly returns AssemblyError on failure, but on success returns whatever the previous status was.", "quantifier": "for all call histories and failure schedules", "why_tests_cant": "history and failure schedule", "anchors": ["src/gsThinShellAssembler.hpp: assembleMass, assembleMatrix, assembleVector"]}
{"id": "C42", "title": "Dirichlet treatment of an assembly", "statement": "Nonlinear assemblies (with explicit homogenisation flag) do not depend on the calls made before; the linear assemble() uses the Dirichlet mode left behind by the previous call, so the same call gives different systems after different histories.", "quantifier": "for all call histories", "why_tests_cant": "history property", "anchors": ["src/gsThinShellAssembler.hpp: assemble, assembleMass, homogenizeDirichlet, constructMultiPatch, _assembleDirichlet"]}
{"id": "C43", "title": "Default interface assignment partitions the interfaces", "statement": "After initialising the interfaces with a default continuity, every topological interface is in at least one coupling container (none added for -1), already assigned interfaces are not duplicated or moved, a second call changes nothing, and any other default is rejected. The add* calls replace the container they name, so interfaces given in an earlier add call of the same kind do not accumulate.", "quantifier": "for all interface lists and pre-assignments", "why_tests_cant": "arbitrary lists", "anchors": ["src/gsThinShellAssembler.hpp: addStrongC0..addUncoupled, initInterfaces"]}
{"id": "C44", "title": "Solution vector round trip", "statement": "Building a displacement field from a solution vector and extracting the solution vector again returns the original vector; prescribed degrees of freedom carry the Dirichlet values; fields that satisfy them are recovered exactly. With a mapped (unstructured spline) basis the extraction does not invert the construction, and updateMultiPatch does not read the geometry it is passed.", "quantifier": "for all degree-of-freedom maps, solution vectors and fixed values", "why_tests_cant": "arbitrary mappers with coupling", "anchors": ["src/gsThinShellAssembler.hpp: constructDisplacement, constructMultiPatch, constructSolutionVector, updateMultiPatch"]}
{"id": "C45", "title": "Boundary reaction sums count each degree of freedom once", "statement": "The reported boundary force per component is the sum of the internal force vector over the set of boundary degrees of freedom, each counted once even if it lies on several listed sides, independent of the order of the sides; at equilibrium with every fixed function listed, it equals the resultant of the applied load in that component.", "quantifier": "for all lists of sides, index sets and equilibrium states", "why_tests_cant": "arbitrary lists and arbitrary meshes", "anchors": ["src/gsThinShellAssembler.hpp: boundaryForce"]}
{"id": "C46", "title": "Point loads", "statement": "A point load changes exactly the right-hand side entries of free degrees of freedom active at the point; with a partition of unity and no eliminated active dof, the added entries per component sum to the load; loads superpose and their order is irrelevant.", "quantifier": "for all loads, mappers, basis values", "why_tests_cant": "arbitrary mappers", "anchors": ["src/gsThinShellAssembler.hpp: _applyLoads"]}
{"id": "C47", "title": "First variation of the surface normal", "statement": "The expression used for the variation of the unit normal is the derivative of the normalised cross product of the tangents in the direction of the variation, at every regular configuration.", "quantifier": "for all tangents with non-zero cross product and all variations", "why_tests_cant": "derivative identity", "anchors": ["src/gsThinShellUtils.h: var1_expr"]}
{"id": "C48", "title": "Second variation of the surface normal", "statement": "The expression used for the second variation is the derivative of the first variation, and is symmetric in its two arguments.", "quantifier": "for all regular configurations and variation pairs", "why_tests_cant": "derivative identity", "anchors": ["src/gsThinShellUtils.h: var2dot_expr / var2deriv2dot"]}
{"id": "C49", "title": "Second variation for displacement fields (error estimator)", "statement": "The second-variation expression for field arguments is symmetric and equals the derivative of the first variation only if a cross-product term happens to coincide; explicit counterexample.", "quantifier": "for all configurations; explicit counterexample", "why_tests_cant": "sign of one cross product", "anchors": ["src/gsThinShellUtils.h: var2_expr"]}
{"id": "C50", "title": "Shell stiffness is the exact linearisation of the internal force", "statement": "At every quadrature point the assembled stiffness density (material plus geometric parts) equals the derivative of the internal force density in every displacement direction, for any material whose A,B,C,D matrices are the derivatives of its stress resultants.", "quantifier": "for all geometries, deformations, test/trial variations", "why_tests_cant": "derivative identity at every state", "anchors": ["src/gsThinShellAssembler.hpp: assembleMatrix_impl, assembleVector_impl"]}
{"id": "C51", "title": "Shell stiffness is symmetric", "statement": "If A and D are symmetric and C is the transpose of B, the stiffness density is symmetric in test and trial variation.", "quantifier": "for all states and variations", "why_tests_cant": "universal", "anchors": ["src/gsThinShellAssembler.hpp: assembleMatrix_impl"]}
{"id": "C52", "title": "Follower pressure is linearised consistently", "statement": "The pressure contribution to the matrix is minus the derivative of the pressure contribution to the vector.", "quantifier": "for all configurations", "why_tests_cant": "derivative identity", "anchors": ["src/gsThinShellAssembler.hpp: _assemblePressure"]}
{"id": "C53", "title": "Elastic foundation in nonlinear assemblies", "statement": "The matrix contribution should be minus the derivative of the vector contribution; the implemented vector has the opposite sign, so the identity fails for every non-zero stiffness (the linear assembly is consistent).", "quantifier": "for all configurations and stiffnesses", "why_tests_cant": "sign error invisible to tests without foundation", "anchors": ["src/gsThinShellAssembler.hpp: _assembleFoundation"]}
{"id": "C54", "title": "Weak interface and boundary coupling terms are consistently linearised", "statement": "For a fixed penalty factor: the 3D C0 coupling matrix is minus the derivative of its vector and positive semi-definite, vanishing exactly on continuous fields; the 2D nonlinear vector has the opposite sign and the 2D linear matrix carries the boundary measure twice; the out-of-plane C1 coupling is consistent at every regular configuration; the weak Dirichlet terms are consistent and impose the prescribed value in 3D, while the 2D linear right-hand side uses an unscaled penalty so imposes a wrong value; the weak Dirichlet matrix is negative semi-definite, so it weakens a positive stiffness.", "quantifier": "all variations, configurations, penalty factors and prescribed values", "why_tests_cant": "Consistency of a linearisation quantifies over all directions and configurations; a converging Newton run only samples them.", "anchors": ["src/gsThinShellAssembler.hpp: _assembleWeakIfc_impl, _assembleWeakBCs_impl"]}
{"id": "C55", "title": "Material id encoding", "statement": "The integer code of (material, implementation) decodes to the same pair and distinct pairs have distinct codes.", "quantifier": "for all pairs", "why_tests_cant": "exhaustive over enumerations and proof of injectivity", "anchors": ["src/gsMaterialMatrixUtils.h: encodeMat_id, decodeMat_id"]}
{"id": "C56", "title": "Material factory honours its options", "statement": "For material and implementation numbers in the 16-bit range, the factory returns exactly the requested law, implementation and compressibility for the offered combinations, throws exactly for the documented unsupported ones and for a linear material with fewer than two parameters, and returns null otherwise. The linear law ignores the compressibility and implementation switches, and numbers outside the 16-bit range are reduced modulo 65536 first, so an unknown number can select a material.", "quantifier": "for all option values including out of range ones", "why_tests_cant": "Decision table over unbounded option values.", "anchors": ["src/getMaterialMatrix.h: getMaterialMatrix", "src/gsMaterialMatrixUtils.h: Material, Implementation"]}
{"id": "C57", "title": "Material XML round trip", "statement": "A material can be written exactly if its class is known to the writer, its dimension is 2 or 3 and no function is missing; reading the result gives back the same class, parameters, thickness and density, also when the parameter elements are reordered. A tension-field wrapper comes back around the same material, but functions set on the wrapper itself are lost. Materials the factory builds with the Generalized or Spectral implementation of the Neo-Hookean and Mooney laws cannot be written: the writer returns null, and crashes if they are wrapped.", "quantifier": "for all materials and any number of parameters", "why_tests_cant": "Unbounded parameter lists and all classes.", "anchors": ["src/gsMaterialMatrixXml.hpp: put, put_impl, get, get_impl, getMaterialMatrixFromXml, putMaterialMatrixToXml"]}
{"id": "C58", "title": "Material container lookup", "statement": "After any sequence of add/set operations piece(k) returns what was last assigned to index k, out-of-range lookup is rejected, out-of-range set is undefined behaviour; reading groups from XML assigns each patch the material of the last group containing it.", "quantifier": "for all operation sequences", "why_tests_cant": "history property", "anchors": ["src/gsMaterialMatrixContainer.hpp"]}
{"id": "C59", "title": "Element-wise error contributions of point loads sum to the total", "statement": "Distributing the error of a point load over the elements gives the same result for every number of threads and every order of the critical sections, never fails when the error list has one entry per element, and adds to the elements exactly what the total error receives, provided some element box contains the point; on one patch the containing elements get equal shares. With several patches the share of an element is proportional to the number of patches from its own to the last, and elements of patches the load is not on receive shares. A point in no element box is added to the total error only.", "quantifier": "for all element lists, patches, loads, thread counts and interleavings", "why_tests_cant": "schedule property; unequal shares appear only with several patches", "anchors": ["src/gsThinShellAssemblerDWR.hpp: _applyLoadsToElWiseError, _applyLoadsToError"]}
{"id": "C60", "title": "Normalised error indicators", "statement": "For a non-zero total error the normalised indicators of the helper (signed and absolute accessor alike) are |contribution|/|total|: numbers, non-negative, and if the total is the sum of the contributions they sum to at least one (exactly one without cancellation, more than one with it). Normalised squared indicators of squared contributions are their squares. Un-normalised accessors return the stored values (absolute ones without sign). For zero total error no normalised indicator is a finite number.", "quantifier": "for all error lists and totals", "why_tests_cant": "arbitrary lists, sign patterns and the division by zero", "anchors": ["src/gsThinShellDWRHelper.h: errors, absErrors, sqErrors"]}
{"id": "C61", "title": "Dual load vectors are gradients of the goal functionals", "statement": "For every admissible goal (displacement, membrane and flexural strain, membrane and flexural stress, membrane force, flexural moment, principal stretch, strain and stress; one component or squared norm; domain, boundary or point), the assembled dual vector is the gradient of computeGoal with respect to the coefficients of the deformation. It fails for: the squared norm of the flexural strain on a boundary, the third stretch component, stretches on non-orthonormal parametrisations, the mid-surface flexural stress of hyperelastic materials, single stretch components at points; membrane-force components on boundaries and at points and the principal-stress norm at points are not answered.", "quantifier": "for all point sets, materials meeting the tangent contract, deformations, differentiable paths and directions", "why_tests_cant": "derivative identity over all states; needs the invariance of principal values under rotation of their directions", "anchors": ["src/gsThinShellAssemblerDWR.hpp: _assembleDual, computeGoal"]}
{"id": "C62", "title": "Eigenvalue error estimators vanish for coinciding duals and are exact for eigenpairs", "statement": "The modal estimator equals the fine minus the coarse eigen-residual plus (evH-evL)(b(u,u)-1); it is 0 for coinciding duals and eigenvalues, and for eigenpairs of the coarse and fine problem with b(u,u)=1 and symmetric material matrices it is (evH - evL) b(zH,u). The buckling estimator vanishes for coinciding duals on geometries without second derivatives, and has the same form there if the prestress has no bending moments or the second derivatives of the modes are constant on each element. On curved geometries it does not vanish for coinciding duals (wrong sign in the bending variation of the difference); with bending moments it uses at every quadrature point of an element the second derivatives of the modes at the first point of that element.", "quantifier": "for all meshes, quadrature point sets, geometries, material matrices, modes and eigenvalues", "why_tests_cant": "bilinear identity over arbitrary fields; the sign error only shows on curved geometries, the point error only with bending prestress and several quadrature points", "anchors": ["src/gsThinShellAssemblerDWR.hpp: computeErrorEig_impl", "src/gsThinShellUtils.h: deriv2_expr"]}
{"id": "C63", "title": "Function sums", "statement": "A function sum evaluates to the sum of its summands for values, first and second derivatives and evalAllDers, for any number of summands and independently of their order; it is defined exactly when there is a summand and all have the requested piece; derivatives of the sum are derivatives of its values. Its support contains every summand's support (and may contain points outside of all of them). A copy evaluates like the original only while the original lives: afterwards evaluating a piece is undefined.", "quantifier": "for all lists of functions, pieces, points, copy histories", "why_tests_cant": "unbounded list; dangling pointers need not crash", "anchors": ["src/gsFunctionSum.h"]}
{"id": "C64", "title": "Stress function evaluates on the requested patch", "statement": "Every stress-function output at a point of patch p depends only on the data of patch p and renumbering patches permutes the outputs. True for all output types except principal stress and principal stress directions, which always use patch 0; principal stress directions are never returned: linear materials throw and hyperelastic ones read a 3x2 matrix as nine numbers.", "quantifier": "for all patches, output types, materials", "why_tests_cant": "tests use single patch geometries", "anchors": ["src/gsThinShellFunctions.hpp: eval_into"]}
{"id": "C65", "title": "Ogden and other parameter setters address the parameters the laws read", "statement": "Setting Young's modulus, Poisson's ratio, Mooney-Rivlin ratio, Ogden mu_i and alpha_i changes exactly the parameter slot the stress law reads, setters commute and getters return the last value set.", "quantifier": "for all setter sequences and all i", "why_tests_cant": "history property and unbounded i", "anchors": ["src/gsMaterialMatrixNonlinear.hpp: setMu, setAlpha, setRatio, _dPsi_da_impl"]}
{"id": "C66", "title": "Evaluator configured with an undeformed geometry uses it", "statement": "Constructing an evaluator with explicit undeformed and deformed geometries makes the evaluation use both. True for the integrating evaluators. The pointwise evaluators register the deformed geometry as the undeformed one as well, so the Green-Lagrange strain they report is zero. The tension-field wrapper copies the undeformed geometry of the wrapped material only if a deformed one is set.", "quantifier": "for all geometry pairs and construction sequences", "why_tests_cant": "needs tracking which geometry object is registered at evaluation time", "anchors": ["src/gsMaterialMatrixEval.hpp: constructors 24-172", "src/gsMaterialMatrixIntegrate.hpp: constructors 32-157", "src/gsMaterialMatrixTFT.h: 91-104"]}
{"id": "C67", "title": "Material response does not depend on the parametrisation", "statement": "The strain energy of the linear material for a given physical strain is the same for every parametrisation of the same surface. True for surfaces in 3D; for planar (dim 2) elements it is false: the contravariant metric member holds the covariant metric, so on a square parametrisation of edge length h the energy is h^8 times the correct one.", "quantifier": "for all material parameters, surface points, invertible reparametrisations and strains", "why_tests_cant": "a test uses one parametrisation, usually of unit size where the two metrics agree", "anchors": ["src/gsMaterialMatrixLinear.hpp: _Cijkl", "src/gsMaterialMatrixBaseDim.hpp: _getMetricUndeformed_impl"]}
{"id": "C68", "title": "Tension-field material carries no bending moment although its bending stiffness is not zero", "statement": "At every point classified taut or slack, the tension-field material over the linear material reports a zero bending moment for every deformation, while its reported bending stiffness D is t^3/12 times the membrane tangent, so the stiffness is not the derivative of the moments (it is for the plain linear material).", "quantifier": "for all thicknesses, states and tangents", "why_tests_cant": "a test sees one state; the vanishing is structural", "anchors": ["src/gsMaterialMatrixIntegrate.hpp: multiplyLinZ_into", "src/gsMaterialMatrixTFT.h: isVecIntegrated, isMatIntegrated"]}
{"id": "C69", "title": "Integrated principal bending stress of the linear material", "statement": "The thickness-integrated principal bending stress of a material declaring constant integration is zero for every deformation, whereas the moment vector is t^3/12 times the stress of the curvature change: the two outputs disagree.", "quantifier": "for all thicknesses and deformations", "why_tests_cant": "structural in the moment used by the dispatch, not visible at one point", "anchors": ["src/gsMaterialMatrixIntegrate.hpp: eval_into_impl", "src/gsMaterialMatrixIntegrate.h: getMoment"]}
{"id": "C70", "title": "Basis transformation matrices act from the first basis to the second", "statement": "The spec2cov/spec2con/cov2cart/con2cart transformation built from bases b1,b2 maps the (11,22,12) components of an in-plane tensor on basis b1 to its components along b2; with the dual bases exchanged it is undone. The documented direction (from the second to the first basis) is wrong.", "quantifier": "for all pairs of bases, all symmetric in-plane tensors", "why_tests_cant": "a test checks one pair of bases, often orthonormal, where both directions agree", "anchors": ["src/gsMaterialMatrixBaseDim.hpp: _transformation, eval3D_spec2cov, eval3D_cov2cart, eval3D_con2cart"]}
{"id": "C71", "title": "Principal stresses and strains are the two in-plane eigenvalues", "statement": "For every symmetric in-plane tensor at a regular point (strain components on the dual basis, stress components on the covariant basis), the two reported principal values are eigenvalues in ascending order, the omitted one is negligible relative to the largest, exactly two values are produced (no out-of-range write), and their sum and sum of squares are the first and second trace invariants of the mixed tensor up to that tolerance.", "quantifier": "for all regular points, heights, symmetric tensors and every answer of the eigen-solver meeting its contract", "why_tests_cant": "the omitted index depends on signs and magnitudes of all eigenvalues", "anchors": ["src/gsMaterialMatrixBaseDim.hpp: _evalPStress, _evalPStrain"]}
{"id": "C72", "title": "Composite stiffness in shell coordinates", "statement": "For a gsMaterialMatrixComposite evaluated at a regular surface point, the MatrixA/B/C/D block returned by eval3D_matrix assigns to every covariant strain the same energy as the ABD block in the lamination frame (first axis along the covariant tangent, second along the contravariant one) whenever the two tangents are orthogonal. For a skew parametrisation the transformation _cart2cov is right only in accidental cases, and there are points where the returned stiffness stores a different energy.", "quantifier": "all regular surface points with orthogonal tangents, all lay-ups, all symmetric strains; existence of a skew counterexample", "why_tests_cant": "Tests use rectangular single-patch benchmarks; the orthogonality condition is a statement over all parametrisations.", "anchors": ["src/gsMaterialMatrixComposite.hpp:191-283", "src/gsMaterialMatrixComposite.hpp:354-395"]}
{"id": "C73", "title": "ABD block positive definite", "statement": "If a laminate has at least one layer, all layer thicknesses are positive and all ply stiffness matrices are positive definite, the 6x6 block [A B; C D] that gsMaterialMatrixComposite integrates is positive definite: every non-zero combination of membrane strain and curvature change stores strictly positive energy, regardless of ply angles and stacking order.", "quantifier": "all non-empty lists of plies with positive thickness and positive definite stiffness, any angles; all strain/curvature vectors", "why_tests_cant": "A statement over all lay-ups and all strain states.", "anchors": ["src/gsMaterialMatrixComposite.hpp:191-283", "src/gsMaterialMatrixComposite.hpp:331-351"]}
{"id": "C74", "title": "Composite density", "statement": "density_into of a composite material returns the mass per unit area of the stack, the sum of layer thickness times layer density. When the composite was constructed without densities, any density query on a stack with at least one layer dereferences a null function.", "quantifier": "all lay-ups with as many densities as layers; all non-empty lay-ups without densities", "why_tests_cant": "The number of layers is unbounded; the null dereference is undefined behaviour that a test may not observe.", "anchors": ["src/gsMaterialMatrixComposite.hpp:141-168"]}
{"id": "C75", "title": "Hyperelastic stresses are gradients of a strain energy", "statement": "The compressible stresses (3D, in-plane and 33 components) of the neo-Hookean, Mooney-Rivlin and extended neo-Hookean laws are twice the derivative of the textbook strain energy in terms of the invariants of C; the incompressible plane-stress stresses are the gradient of the energy of the isochoric 3D tensor.", "quantifier": "for all parameters, admissible metrics and directions", "why_tests_cant": "identity of derivatives over all states; a sign or factor error in one term can be invisible in a benchmark", "anchors": ["src/gsMaterialMatrixNonlinear.hpp: _Sij_impl (Analytical)"]}
{"id": "C76", "title": "Compressible Cauchy stress output", "statement": "eval3D_CauchyStress of a compressible hyperelastic material should return the stress divided by det F; the code returns zero for every state.", "quantifier": "for all states and parameters (characterisation); exists a state (refutation)", "why_tests_cant": "no test evaluates it; the returned matrix is only ever zero-initialised", "anchors": ["src/gsMaterialMatrixNonlinear.hpp: _eval3D_Compressible_CauchyStress (1045-1073)"]}
{"id": "C77", "title": "Hyperelastic laws linearise to the linear material", "statement": "At the undeformed state the (condensed) tangent of every compressible hyperelastic law is the plane-stress tensor of gsMaterialMatrixLinear for the same E and nu, and incompressible laws give its nu->1/2 form with the same shear modulus.", "quantifier": "for all parameters and undeformed metrics", "why_tests_cant": "cross-class equality over all parameters and geometries", "anchors": ["src/gsMaterialMatrixNonlinear.hpp: _Cijkl_impl, _Cijkl3D_impl", "src/gsMaterialMatrixLinear.hpp: _Cijkl"]}
{"id": "C78", "title": "Plane-stress thickness exists, is unique and regular", "statement": "For every compressible hyperelastic law with positive shear and non-negative bulk response and every admissible state there is exactly one positive thickness component with zero transverse stress; the stress changes sign there from negative to positive, the Newton denominator C3333 is positive there, and the solution lies between explicit bounds.", "quantifier": "for all laws, parameters and admissible states", "why_tests_cant": "existence and uniqueness over a continuum", "anchors": ["src/gsMaterialMatrixNonlinear.hpp: _eval3D_Compressible_C33, _Sij_impl, _Cijkl3D_impl"]}
{"id": "C79", "title": "Ogden stress is the gradient of the Ogden energy", "statement": "The Ogden stress returned by the Spectral implementation is twice the derivative with respect to the deformation tensor of sum mu_i/alpha_i (l1^alpha_i+l2^alpha_i+l3^alpha_i-3), incompressible (l3=1/(l1 l2)) or in isochoric/volumetric split form.", "quantifier": "for all parameter lists with nonzero exponents, all states (distinct or coincident in-plane stretches), all directions", "why_tests_cant": "path independence of the stress over a continuum of states", "anchors": ["src/gsMaterialMatrixNonlinear.hpp: _dPsi_da_impl (OG), _Sa_impl, _p"]}
{"id": "C80", "title": "Spectral tangent is the derivative of the spectral stress", "statement": "For all laws of the Spectral implementation including Ogden with any number of terms, the tangent is the exact derivative of the stress; compressible laws: of the in-plane stress along the plane-stress thickness path.", "quantifier": "for all states whose stretches are equal or not treated as equal by the code, all in-plane directions", "why_tests_cant": "finite-difference tests only bound the error at sampled states", "anchors": ["src/gsMaterialMatrixNonlinear.hpp: _d2Psi_dab_impl, _dSa_db_impl, _Cabcd_impl, _Cijkl_impl (Spectral), _Cijkl3D_impl (Spectral)"]}
{"id": "C81", "title": "Small-strain stiffness of the Ogden law", "statement": "At the undeformed state the Ogden tangent is isotropic with shear modulus sum(mu_i alpha_i)/2; Young's modulus and Poisson's ratio of the material only enter through the bulk modulus of the compressible law, so the stiffness need not match them.", "quantifier": "for all parameter lists, geometries and principal frames", "why_tests_cant": "universal over parameter lists of any length", "anchors": ["src/gsMaterialMatrixNonlinear.hpp: _d2Psi_dab_impl (OG), _Cabcd_impl (equal stretches branch)"]}
{"id": "C82", "title": "Acceptance test of a wrinkling angle", "statement": "An angle is accepted exactly when the stress across the wrinkles is negative and (extension along the tension direction + the shear contribution once more) is positive: the engineering shear strain is counted twice, so the test is right for unsheared states and, in general, rejects admissible angles and accepts inadmissible ones.", "quantifier": "for all angles, stresses and strains", "why_tests_cant": "a continuum of states; the unit tests only use shear-free ones", "anchors": ["src/gsMaterialMatrixTFT.hpp: _check_theta_full (595-608)", " src/gsMaterialMatrixBaseDim.hpp 285-287 (strain Voigt convention)"]}
{"id": "C83", "title": "Tension-field tangent for a nonlinear inner material", "statement": "Along every differentiable path of wrinkled states the derivative of the returned stress is the transpose of the returned tangent; an explicit energy-consistent material shows the two differ.", "quantifier": "for all inner materials with symmetric tangent and fully symmetric tangent derivative, all paths", "why_tests_cant": "derivative along a continuum of paths", "anchors": ["src/gsMaterialMatrixTFT.hpp: _compute_C with dC (887-945)"]}
{"id": "C84", "title": "Cauchy stress of wrinkled points", "statement": "For wrinkled points the Cauchy stress is the modified stress divided by the square root of the volume ratio J, which is the Cauchy stress only when J = 1 (or the stress vanishes).", "quantifier": "for all states and volume ratios", "why_tests_cant": "continuum of states", "anchors": ["src/gsMaterialMatrixTFT.hpp: eval3D_CauchyStress (199-243)"]}
{"id": "C85", "title": "A physical wrinkled state is in tension and its tangent is defined", "statement": "For a positive definite linear inner material, at every root of the wrinkling equation with compression across the wrinkles and extension along the tension direction, the wrinkling strain is positive, the modified stress is a positive uniaxial tension, and the divisor df/dtheta of the tangent is positive (so the root is an upward crossing).", "quantifier": "for all angles, strains and positive definite tensors", "why_tests_cant": "sign statement over a continuum", "anchors": ["src/gsMaterialMatrixTFT.hpp: _compute_S, _compute_C (820-884)"]}
{"id": "C86", "title": "Selection of the wrinkling angle", "statement": "The returned angle passes the acceptance test, or it is 0 and every candidate failed the test; in the grid search the bisection and Newton fallbacks are unreachable and every upward sign change contributes a point within the tolerance of a root; the extra candidate 0 is offered exactly when 0 solves the (pi-periodic) wrinkling equation.", "quantifier": "for all states, intervals and iteration budgets", "why_tests_cant": "search over all states", "anchors": ["src/gsMaterialMatrixTFT.hpp: eval_theta (455-578)"]}
{"id": "C87", "title": "Variations of the boundary tangent and outer normal", "statement": "For every regular configuration and either boundary orientation, the column and sign detected from the outer normal are the right ones, the tangent and outer-normal variation expressions are the derivatives of the unit tangent and of (unit tangent x unit normal); the second variation of the outer normal is the derivative of the first when the tangent columns have unit length and is wrong otherwise.", "quantifier": "all regular configurations, variations, orientations, tolerances in (0,1)", "why_tests_cant": "Derivative identity over a continuum of configurations and directions.", "anchors": ["src/gsThinShellUtils.h: tvar1_expr, ovar1_expr, ovar2dot_expr"]}
{"id": "C88", "title": "In-plane C1 coupling and weak clamped conditions: matrix versus vector", "statement": "The in-plane C1 coupling matrix is minus the derivative of its vector at the undeformed configuration but not at deformed ones; the weak clamped vector has zero derivative at the undeformed configuration while its matrix is non-zero there.", "quantifier": "all regular configurations and variations", "why_tests_cant": "A wrong tangent only slows convergence, so result comparisons do not reveal it.", "anchors": ["src/gsThinShellAssembler.hpp: _assembleWeakIfc_impl, _assembleWeakBCs_impl"]}
{"id": "C89", "title": "Rigid-body motions are strain free and internal forces are self-equilibrated", "statement": "The strain variations vanish on every infinitesimal rigid motion of every regular configuration, the normal rotates with it, the assembled internal force does no work on it for any material law, and the linear stiffness annihilates it from both sides.", "quantifier": "all configurations, rotation and translation vectors, material laws, discretisations", "why_tests_cant": "Holds for a six-parameter family at every configuration and discretisation; tests sample a few meshes.", "anchors": ["src/gsThinShellAssembler.hpp: assembleMatrix_impl, assembleVector_impl", "src/gsThinShellUtils.h: var1_expr"]}
{"id": "C90", "title": "Mass matrix", "statement": "The consistent mass matrix is symmetric, positive semi-definite for non-negative density, and the kinetic form of a uniform translation b equals total mass times |b|^2 for any basis forming a partition of unity.", "quantifier": "all densities, bases with partition of unity, quadrature rules, translations", "why_tests_cant": "Quantifies over discretisations and velocity fields.", "anchors": ["src/gsThinShellAssembler.hpp: assembleMass"]}
{"id": "C91", "title": "Mixed integration point (MIP) matrix", "statement": "With a zero update the MIP matrix equals the Newton matrix for the previous resultants; the predicted resultants are the first-order extrapolation of the resultants along the update when A, D are symmetric and C is the transpose of B. (Which configuration the tangents are evaluated at is the subject of C97.)", "quantifier": "all configurations, updates, material laws with symmetric tangents", "why_tests_cant": "First-order agreement is a limit statement over all updates.", "anchors": ["src/gsThinShellAssembler.hpp: assembleMatrix_impl (previous, update)"]}
{"id": "C92", "title": "setBasis changes the discretisation", "statement": "setBasis(b) makes later assemblies use b both for the quadrature elements and for the trial space when the assembler was built with a material container; when it was built with a single material the trial space keeps the basis object passed to the constructor and only the quadrature elements change.", "quantifier": "for all states and bases", "why_tests_cant": "depends on which constructor was used and on pointer identity", "anchors": ["src/gsThinShellAssembler.hpp: constructors, setBasis, _initialize", "src/gsThinShellAssembler.h: setBasis, setSpaceBasis"]}
{"id": "C93", "title": "Point masses", "statement": "setPointMass has no effect on any result: two call histories that differ only in setPointMass calls produce the same mass matrix, stiffness matrix, right-hand side and status, so a registered point mass is missing from the mass matrix.", "quantifier": "for all call histories and mass lists", "why_tests_cant": "quantifies over histories; a test compares finitely many", "anchors": ["src/gsThinShellAssembler.h: setPointMass", "src/gsThinShellAssembler.hpp: _applyMass, assembleMass"]}
{"id": "C94", "title": "Copies of an assembler", "statement": "For programs that create assemblers only with the single-material constructor, any sequence of copies, moves, setter calls and destructions leaves every assembler with the elements and trial-space basis of an independent value. An assembler built with a material container is not deep-copied: the copy (or move target) builds its trial space from the original object's basis, so setBasis on the copy does not change its space, setBasis on the original does, and re-initialising the copy after the original is destroyed is undefined behaviour.", "quantifier": "for all programs of constructions, copies, moves, setters and destructions", "why_tests_cant": "aliasing only shows for particular lifetimes and orders of calls", "anchors": ["src/gsThinShellAssembler.h: copy and move constructors", "src/gsThinShellAssembler.hpp: operator=, constructors, _initialize"]}
{"id": "C95", "title": "Areas and displacement norms", "statement": "getArea(geometry) is invariant under rigid motions, reflections and changes of parametrisation. getDisplacementNorm(deformed) vanishes exactly when no point moved and is the root mean square displacement as long as the deformation keeps the surface element (|t| for a translation); it integrates |u|^2 over the deformed but divides by the original area, so a growing surface inflates it: with every point moving by 1 it can return 2. deformationNorm integrates the squared position, so it is not zero for an undeformed shell and depends on the origin.", "quantifier": "all geometries, all deformations, all quadrature rules with positive weights", "why_tests_cant": "Tests compare a number for one geometry; invariance under arbitrary motions and parametrisations and the mixed-measure error need a general argument.", "anchors": ["src/gsThinShellAssembler.hpp:2508-2539", "src/gsThinShellAssembler.hpp:2897-2909", "src/gsThinShellAssembler.h:994-998"]}
{"id": "C96", "title": "Evaluators that share a material object", "statement": "An evaluator of a material uses its own deformed geometry exactly as long as no evaluator constructed later registers another geometry with the same material object; otherwise it silently evaluates on the later geometry (the constructors write into the shared material). Evaluators are therefore not independent of each other.", "quantifier": "for all sequences of evaluator constructions (integrating and pointwise, single and multi patch, plain and tension-field materials)", "why_tests_cant": "needs every interleaving of constructions and evaluations; a test that builds one evaluator at a time never sees the effect", "anchors": ["src/gsMaterialMatrixIntegrate.hpp: constructors 32-157", "src/gsMaterialMatrixEval.hpp: constructors 24-172", "src/gsMaterialMatrixBase.h: 776-800", "src/gsMaterialMatrixTFT.h: 205-233"]}
{"id": "C97", "title": "Configuration of the material tangents in the mixed-integration-point matrix", "statement": "In assembleMatrix(deformed, previous, update) all material coefficients A, B, C, D, N, M are those of the previous configuration: the first six evaluators are built with the deformed geometry, but the second six overwrite it in the shared materials before anything is evaluated. The matrix is therefore not the one with the tangents of the deformed configuration that the code spells out.", "quantifier": "for all materials, geometries, updates and pairs of basis functions", "why_tests_cant": "the two matrices agree whenever the tangents do not change between the configurations (linear material, converged state), which is what tests use", "anchors": ["src/gsThinShellAssembler.hpp: assembleMatrix_impl 1866-1958"]}
{"id": "C98", "title": "Setters on a tension-field material", "statement": "Setting the thickness, density or parameters on a tension-field material has no effect on evaluations, which forward to the wrapped material, although its getters return the new values; only the raw-pointer setParameters is forwarded, and the named setters throw.", "quantifier": "for all sequences of setter calls", "why_tests_cant": "Needs every call sequence; tests configure the inner material first.", "anchors": ["src/gsMaterialMatrixTFT.h: density_into, thickness_into, setParameters", "src/gsMaterialMatrixBase.h: setThickness, setDensity, setParameter"]}
{"id": "C99", "title": "Reported stresses and strains are Cartesian components", "statement": "Reported membrane/flexural stresses, forces and moments are the components of the evaluated tensor in the unique orthonormal tangent frame whose first vector is along the first tangent; the reported membrane strain gives the elongation of every material line element; reported force and strain are work conjugate. The reported flexural strain is read correctly as tensor components exactly if the twist does not change, and with a doubled shear component exactly for orthogonal tangents or if the first curvature and twist do not change.", "quantifier": "for all regular geometries, stress components and line elements", "why_tests_cant": "tests compare single values on rectangular meshes", "anchors": ["src/gsThinShellUtils.h: cartcov_expr, cartcon_expr", "src/gsThinShellFunctions.hpp: 39-110"]}
{"id": "C100", "title": "Reported von Mises stress", "statement": "The reported von Mises values are the equivalent stress of the deviator of the evaluated second Piola-Kirchhoff stress, vanish exactly if the stress vanishes and do not depend on the parametrisation. The pair called von_mises is meant for the two surfaces, but uses height one instead of half the thickness (linear material), and for hyperelastic materials is twice the membrane value and zero.", "quantifier": "for all regular geometries, parametrisations, stresses", "why_tests_cant": "invariance over all parametrisations", "anchors": ["src/gsThinShellFunctions.hpp: 158-190"]}
{"id": "C101", "title": "Flexural outputs", "statement": "For linear materials the flexural stress is the derivative of the stress in thickness direction at the mid-surface. For hyperelastic materials all flexural stress outputs repeat the membrane outputs, and principal flexural strains repeat principal membrane strains for every plain material, also where the flexural strain differs.", "quantifier": "for all geometries, materials and laws", "why_tests_cant": "derivative statement; for all laws", "anchors": ["src/gsThinShellFunctions.hpp", "src/gsMaterialMatrixLinear.hpp: 461-493, 594-626", "src/gsMaterialMatrixNonlinear.hpp: 709-713, 1011-1015", "src/gsMaterialMatrixEval.hpp: 286-292, 361-370"]}
{"id": "C102", "title": "The error estimator is the dual-weighted residual", "statement": "computeError with loads returns residual(zH) - residual(zL); for duals of finite element spaces this is R_H.xH - R_L.xL, it does not depend on the coarse dual when the primal solves the coarse problem, it is R_H.(xH - E xL) for nested spaces, and 0 when the fine residual vanishes or the duals coincide. The linear overload returns the difference g_H.u_H - g_L.u_L of the goals of the two discrete solutions. Pressure and foundation forces are not part of the estimator, and the bending estimator without loads drops the Neumann forces (refuted equilibrium).", "quantifier": "for all meshes, quadrature rules, deformed geometries, stress resultants, loads and spaces", "why_tests_cant": "identity over all configurations and spaces, needs linearity of the variations", "anchors": ["src/gsThinShellAssemblerDWR.hpp: computeError_impl, computeErrorElements, _applyLoadsToError"]}
{"id": "C103", "title": "Element errors sum to the total error up to the Neumann term", "statement": "computeErrorElements returns one entry per element; their sum is the stored m_error, and the value of computeError is this sum plus the Neumann boundary term (which is never distributed over the elements), for every number of threads and schedule; no exception on matching meshes.", "quantifier": "for all meshes, loads contained in the mesh, thread numbers, schedules", "why_tests_cant": "schedules and loads cannot be enumerated", "anchors": ["src/gsThinShellAssemblerDWR.hpp: computeError_impl, _applyLoadsToElWiseError"]}
{"id": "C104", "title": "computeErrorDofs returns the previous element errors", "statement": "The per-dof error computations leave m_error and m_errors unchanged: what is returned are the values of the previous call (or an empty vector), not errors per degree of freedom.", "quantifier": "for all problems and member states", "why_tests_cant": "depends on the history of calls", "anchors": ["src/gsThinShellAssemblerDWR.hpp: computeErrorDofs, computeError_impl<2>"]}
{"id": "C105", "title": "matrixNorm is the quadratic form of the assembled matrices", "statement": "The modal matrixNorm is x^T M y with the consistent mass matrix, symmetric, non-negative for equal arguments; the buckling version without foundation and pressure is, on geometries without second derivatives, symmetric, and it is the form of tangent minus linear stiffness if the prestress has no bending moments or the second derivatives of the fields are constant on each element. Otherwise it uses the second derivatives at the first quadrature point of the element. With foundation or pressure it is not even linear: for the zero field it need not vanish.", "quantifier": "for all meshes, fields, densities", "why_tests_cant": "bilinear identity over all fields", "anchors": ["src/gsThinShellAssemblerDWR.hpp: matrixNorm", "src/gsThinShellUtils.h: deriv2_expr"]}
{"id": "C106", "title": "Stretch transformation yields squared principal stretches", "statement": "The matrix returned as StretchTransform, applied to the Voigt vector of the deformed metric, gives the squared principal stretches when the undeformed tangents are orthonormal. Otherwise it does not (16 instead of 1 for an undeformed surface whose first tangent has length 2), because the covariant basis is used where the contravariant one is needed.", "quantifier": "for all orthonormal undeformed tangents, deformed metrics and principal directions", "why_tests_cant": "needs non-orthonormal parametrisations and an algebraic identity", "anchors": ["src/gsMaterialMatrixBaseDim.hpp: eval3D_spec2con", "src/gsMaterialMatrixBase.h: eval3D_pstretchTransform", "src/gsThinShellAssemblerDWR.hpp: _assembleDual"]}
{"id": "C107", "title": "Squared error estimates are non-negative and bound the estimate", "statement": "With non-negative weights and without tractions and loads, the squared estimate and each squared element error are non-negative, and error^2 <= area * squared error. With tractions (added unsquared even without loads) the value can be negative.", "quantifier": "for all meshes and fields", "why_tests_cant": "inequality over all inputs", "anchors": ["src/gsThinShellAssemblerDWR.hpp: computeSquaredError_impl"]}
{"id": "C108", "title": "Strain output is the Green-Lagrange strain at the requested height", "statement": "The strains evaluated at a height z give half the change of the squared length of every tangent vector of the offset surface (shear entry doubled), and equal the membrane strain plus z times the bending strain used by the assembler plus half the change of the third fundamental form times z^2.", "quantifier": "for all regular geometries, heights and tangent vectors", "why_tests_cant": "relates two independent code paths over all geometries", "anchors": ["src/gsMaterialMatrixBaseDim.hpp: eval3D_strain", "src/gsThinShellAssembler.hpp: m_Em, m_Ef"]}
{"id": "C109", "title": "getElasticEnergy is not the elastic energy", "statement": "getElasticEnergy, documented as half the work of the internal forces on the displacement, contracts the displacement vector with the Voigt components of N+M: translating the deformed shell changes it by the mean of t.(N+M), a stretched membrane can return 0 although its energy is positive, and for planar shells the sizes do not match.", "quantifier": "all deformed geometries, all resultants, all quadrature rules", "why_tests_cant": "The function returns a plausible number for every input; only the relation with strains and stresses shows that it has no meaning.", "anchors": ["src/gsThinShellAssembler.hpp:2541-2563", "src/gsThinShellAssembler.h:1000-1001"]}
{"id": "C110", "title": "Interface error measures", "statement": "interfaceErrorC0 and interfaceErrorG1 vanish exactly when positions and unit normals agree at the interface. For two patches that are pieces of one surface with equally oriented parametrisations C0, G1, Gauss and mean curvature errors vanish, whatever the parametrisations. With opposite orientation the G1 error is 2 sqrt(length) and the mean curvature error is twice the curvature. interfaceErrorNormal compares normals that are not normalised, so it is |1-det P| times the surface element for a smooth surface. The in-plane test of an interface uses the error of all interfaces together.", "quantifier": "all pairs of surface jets, all changes of parametrisation up to second order, all quadrature rules with positive weights", "why_tests_cant": "Tests use matching or identically parametrised patches, where all measures are zero.", "anchors": ["src/gsThinShellAssembler.hpp:2577-2623", "src/gsThinShellAssembler.hpp:2911-2952", "src/gsThinShellAssembler.h:1054-1072"]}
{"id": "C111", "title": "projectL2", "statement": "projectL2(fun) returns an empty matrix for every function: no function can be recovered from its result.", "quantifier": "all functions", "why_tests_cant": "No test calls it; a single call would only show an empty result for one function.", "anchors": ["src/gsThinShellAssembler.hpp:2823-2895", "src/gsThinShellAssembler.h:1074-1081"]}
{"id": "C112", "title": "Evaluator results have the declared size", "statement": "Evaluating an output at n points and m heights gives a matrix with targetDim() rows and one column per point and height. Holds for all single-layer and tension-field outputs except: principal strains always have 3 rows where 2 are declared, stress directions are never returned, transformations and wrinkling quantities are undefined for more than one height, and tension-field Cauchy resultants throw. Composite resultants and stiffnesses have one column per point whatever the number of heights, and composite thickness writes into a matrix it never sizes.", "quantifier": "for all material classes, outputs, numbers of points, heights, parameters and layers", "why_tests_cant": "Tests evaluate a few outputs at one height; the size depends on class, output and both counts.", "anchors": ["src/gsMaterialMatrixEval.h: targetDim_impl", "src/gsMaterialMatrixEval.hpp: eval_into_impl", "src/gsMaterialMatrixBaseDim.hpp: eval3D_pstrain", "src/gsMaterialMatrixComposite.hpp: thickness_into", "src/gsMaterialMatrixIntegrate.hpp: eval_into"]}
{"id": "C113", "title": "Principal stretches of compressible materials at several heights", "statement": "For every point and height the stretches of a compressible material are the in-plane principal stretches and the plane-stress transverse stretch, and they multiply to the volume ratio. True for one height per point; with several heights the transverse stretch is that of the first height of the point. The variants without heights are undefined for two or more points.", "quantifier": "for all laws, points, heights, surfaces and accepted plane-stress solutions", "why_tests_cant": "Tests evaluate stretches at one height or in a homogeneous state where all heights agree.", "anchors": ["src/gsMaterialMatrixNonlinear.hpp:574-606", "src/gsMaterialMatrixNonlinear.hpp:223-301", "src/gsMaterialMatrixNonlinear.hpp:976-1000", "src/gsMaterialMatrixNonlinear.hpp:1865-1937"]}
{"id": "C114", "title": "A session on the error-estimation assembler keeps two discretisations and eight stored results apart", "statement": "After any sequence of settings and assembly requests on gsThinShellAssemblerDWR, matrixL/H, massL/H, primalL/H and dualL/H are the results of the last such request for that level, for the problem configured at that moment; a request changes only its own result, whether it succeeds, fails or throws; what a failed request leaves behind is determined; the inherited assembler receives only the undeformed geometry. Dual vectors refer to the numbering of the level's system exactly when continuity 0 was set and the boundary conditions are those of the constructor (with the default options, or after updateBCs, they do not); the mass matrix must not be the first request.", "quantifier": "for all histories of calls, all geometries, bases, boundary conditions, loads, goals, both levels, and both possible sharing behaviours of copied expression assemblers", "why_tests_cant": "Tests run one fixed order of calls on single-patch problems, where continuity -1 and 0 coincide and no request fails; the interplay of three assemblers over arbitrary histories is unbounded", "anchors": ["src/gsThinShellAssemblerDWR.h:90-200", "src/gsThinShellAssemblerDWR.hpp:45-73", "src/gsThinShellAssemblerDWR.hpp:125-222", "src/gsThinShellAssemblerDWR.hpp:643-678", "src/gsThinShellAssemblerDWR.hpp:1102-1144"]}
{"id": "C115", "title": "The error helper solves the dual problems of the configured goal", "statement": "gsThinShellDWRHelper::computeError hands the estimator, for each level, the solution of the level's tangent matrix with the sum of exactly the requested dual load vectors (interior, element sides, points), each once, all of the configured problem, and leaves the assembler usable. A part whose assembly fails is not reported: the previous part is counted twice. With default options the system mixes two numberings, and if copies share the trial space vectors of different size are added.", "quantifier": "for all admissible histories before the call, all selections of interior / side / point goals, all goal functionals and components, both levels", "why_tests_cant": "Tests use one goal part at a time on single-patch problems with goals that have every version; the failure is silent (status ignored)", "anchors": ["src/gsThinShellDWRHelper.h:67-141", "src/gsThinShellAssemblerDWR.hpp:195-222"]}
{"id": "C116", "title": "Planar elements of hyperelastic materials respond as flat shells", "statement": "For every hyperelastic law and implementation, compressible or not, eval3D_stress and eval3D_matrix of a planar element (dim 2) return the values, or fail in the way, of the shell element (dim 3) obtained by embedding both configurations in the plane z = 0, at every through-thickness coordinate, for positively and negatively oriented parametrisations. The linear material does not satisfy this: its planar elements use the covariant metric in place of the contravariant one.", "quantifier": "all laws, implementations, planar configurations with non-degenerate reference parametrisation, thicknesses and heights", "why_tests_cant": "A test compares one planar computation with one shell computation; orientation, implementation and law combinations cannot be enumerated with all geometries.", "anchors": ["src/gsMaterialMatrixBaseDim.hpp:1133", "src/gsMaterialMatrixBaseDim.hpp:1264", "src/gsMaterialMatrixNonlinear.hpp:778", "src/gsMaterialMatrixNonlinear.hpp:1240"]}
{"id": "C117", "title": "Evaluation with a prescribed deformation tensor agrees with evaluation of a configuration", "statement": "eval3D_stress_C and eval3D_matrix_C of hyperelastic materials, given the tensor components (C11, C22, C12) of the metric of any deformed configuration at a height, return what eval3D_stress and eval3D_matrix return for that configuration, independently of the deformed configuration the material holds. For the linear material the matrix ignores the prescribed tensor, the generic output agrees at every height, the membrane output at the mid-surface, the bending output does not agree, and debug builds throw off the mid-surface.", "quantifier": "all laws, implementations, reference and deformed configurations with non-degenerate deformed metric, heights", "why_tests_cant": "The two evaluation paths fill the metric members from different sources; agreement must hold at every deformation, not at sampled ones.", "anchors": ["src/gsMaterialMatrixBaseDim.hpp:1041", "src/gsMaterialMatrixNonlinear.hpp:304", "src/gsMaterialMatrixNonlinear.hpp:743", "src/gsMaterialMatrixLinear.hpp:217", "src/gsMaterialMatrixLinear.hpp:318"]}
{"id": "C118", "title": "eval3D_dmatrix is the derivative of the material matrix with respect to the deformation tensor", "statement": "For the incompressible neo-Hookean law, entry r + 3(a + 3b) of eval3D_dmatrix is the derivative of entry (a,b) of the material matrix in direction r of the deformation tensor (11, 22, engineering 12), and the reshaped and doubled array used by the tension-field material is the derivative with respect to the strain. For every other law the result is the derivative at the state with half the shear component: right where the deformed metric has no shear, wrong otherwise. In batches, the difference-based evaluation of two or more points reads point data that are no longer stored.", "quantifier": "all configurations with positive metric determinants; all numbers of points and heights; any differentiation operator that is exact where derivatives exist", "why_tests_cant": "The error vanishes for shear-free states, which are what tests use; derivatives at all states are not testable by examples.", "anchors": ["src/gsMaterialMatrixNonlinear.hpp:54", "src/gsMaterialMatrixNonlinear.hpp:343", "src/gsMaterialMatrixNonlinear.hpp:378", "src/gsMaterialMatrixTFT.hpp:442"]}
{"id": "C119", "title": "Penalty factors of the weak conditions follow the plane-stress stiffness", "statement": "For an isotropic linear shell, the automatically scaled penalty factor of a weak clamped, Dirichlet or interface condition is alpha * k * E/(1-nu^2) / (element area) (k = t for displacements, t^3/12 for rotations) wherever the parameter lines are orthogonal, whatever their lengths and orientation. On every regular parametrisation it is positive and not below that value divided by sin^4 of the angle between the parameter lines; so it is not a property of the surface and material alone: shearing the parameter lines of a fixed plane raises it without bound.", "quantifier": "all regular surface points, all E > 0, -1 < nu < 1/2, all k, alpha, area > 0", "why_tests_cant": "A test fixes one parametrisation, usually an orthogonal one, where the wrong direction of the transformation is invisible.", "anchors": ["src/gsThinShellAssembler.hpp:588", "src/gsThinShellAssembler.hpp:595", "src/gsThinShellAssembler.hpp:895", "src/gsThinShellAssembler.hpp:1282", "src/gsThinShellUtils.h:1959"]}
{"id": "C120", "title": "A linear membrane that is neither taut nor slack has exactly one wrinkling direction", "statement": "For a linear inner material with positive definite stiffness, a wrinkled state (uniaxial tension after a contraction across the wrinkles) exists exactly when some direction is compressed by the unmodified stress and some direction is extended; the direction is unique up to half turns, and contraction and tension are unique and are the values the tension-field material computes from a root of its wrinkling equation. The acceptance test of the search can, however, reject this only direction.", "quantifier": "All strains, all symmetric positive definite stiffness matrices, all angles; all isotropic materials on any positive definite metric.", "why_tests_cant": "Existence and global uniqueness over a continuum of directions and strains; tests only see sampled strains, for which a returned angle may or may not be the right one.", "anchors": ["src/gsMaterialMatrixTFT.hpp:455", "src/gsMaterialMatrixTFT.hpp:595", "src/gsMaterialMatrixTFT.hpp:820", "src/gsMaterialMatrixTFT.hpp:963"]}
{"id": "C121", "title": "The wrinkled stress depends differentiably on the strain, whichever angle the search returns", "statement": "Near a wrinkled state of a linear membrane every strain has a wrinkled state, and the stress returned is differentiable in every strain direction with the same derivative whatever representatives of the angle are returned; for any inner material a non-degenerate root of the wrinkling equation continues to exactly one continuous root and the returned tangent is the transposed derivative of the returned stress along it.", "quantifier": "All strain states and directions, all selections of the angle; all continuously varying stresses and tangents.", "why_tests_cant": "A statement about limits along all deformation paths and all choices the root search can make.", "anchors": ["src/gsMaterialMatrixTFT.hpp:455", "src/gsMaterialMatrixTFT.hpp:820", "src/gsMaterialMatrixTFT.hpp:837", "src/gsMaterialMatrixTFT.hpp:963"]}
{"id": "C122", "title": "Zero strain characterises rigid motions", "statement": "On a connected patch (open parameter rectangle) with regular undeformed and deformed surfaces, the membrane and bending strains used by the shell assembler vanish everywhere exactly when the deformed surface is a rotation plus a translation of the undeformed one; the same holds when the strain returned by the pointwise evaluator vanishes at the heights 0, h and -h. For the linear assembly, the strain variations vanish everywhere exactly for infinitesimal rigid motions, so three non-collinear supports leave no strain-free displacement. Both statements fail for assemblers without bending.", "quantifier": "all smooth regular surfaces and displacements over a rectangle, all heights h <> 0", "why_tests_cant": "Tests can only check that selected rigid motions give zero strain; that no other deformation does is a statement about all surfaces.", "anchors": ["src/gsThinShellAssembler.hpp:1566-1570", "src/gsThinShellAssembler.hpp:1740-1747", "src/gsMaterialMatrixBaseDim.hpp:268-292"]}
{"id": "C123", "title": "Linear static and modal problem", "statement": "For section stiffnesses that are symmetric and positive definite (all admissible linear materials of positive thickness), the matrix of the linear assembly is symmetric positive semi-definite with exactly the fields of zero linearised strain as null vectors; with any set of eliminated degrees of freedom, a dof vector solves the assembled equations exactly when it minimises the potential energy among all vectors with the same prescribed values, every load has exactly one solution if and only if the eliminated dofs leave no strain-free motion (otherwise some load has none), solutions are unique up to strain-free fields, the work of the loads is twice the strain energy, generalised eigenvalues with the mass matrix are non-negative and vanish only for strain-free modes, and modes of different eigenvalues are orthogonal. The tangent of the nonlinear assembly at the stress-free undeformed shell is the same matrix.", "quantifier": "all meshes, bases, quadrature rules with positive weights, loads, sets of eliminated dofs and solutions", "why_tests_cant": "A test checks single solves; definiteness, minimality, existence and uniqueness quantify over all dof vectors.", "anchors": ["src/gsThinShellAssembler.hpp:1540-1629", "src/gsThinShellAssembler.hpp:1435-1491", "src/gsThinShellAssembler.hpp:1749-1783"]}
{"id": "C124", "title": "Stiffness of hyperelastic shells against the derivative of the internal force", "statement": "For a shell with an incompressible (or compressible plane-stress) hyperelastic material integrated through the thickness, the derivative of the assembled internal force along any displacement is the assembled stiffness plus a term the assembler leaves out: the strain it uses for the tangent is linear in the height, while the metric from which the stresses are computed also contains height squared times the third fundamental form. Hence the stiffness is exact where the deformed surface has no curvature (or the rule samples only the mid-surface), it is symmetric although the true derivative is not, it is wrong already at the stress-free undeformed state of a cylinder, and the internal force is the gradient of the stored energy only up to half the second moment of the stress on the change of the third form. The membrane formulation misses the change of curvature as well, and is exact for flat membranes with a centred rule.", "quantifier": "all material parameters, thickness rules, reference and deformed surfaces whose layers are non-degenerate, directions, test functions, numbers of basis functions and quadrature points", "why_tests_cant": "A finite-difference test on a flat plate or at small curvature shows agreement; the difference is of second order in thickness times curvature and appears only for curved deformed states, so a tolerance hides it. That the difference is exactly the third-form term, for every material and state, needs the chain rule through the metric.", "anchors": ["src/gsThinShellAssembler.hpp:1736-1783", "src/gsThinShellAssembler.hpp:2012-2049", "src/gsMaterialMatrixBaseDim.hpp:1090-1110", "src/gsMaterialMatrixIntegrate.hpp:301-331", "src/gsMaterialMatrixNonlinear.hpp:1684-1714"]}
{"id": "C125", "title": "Weakly imposed displacements and weakly coupled patches in the linear problem", "statement": "The weak Dirichlet term of the linear assembly subtracts its penalty from the stiffness. A structure with strong supports therefore has a positive definite, uniquely solvable system for option values below some critical positive value only; at that value the system is singular and beyond it indefinite. A structure held by the weak condition alone has an indefinite system for every positive option value and an energy without minimum. For options of large absolute value, of either sign, the system is uniquely solvable and the displacements on the weak sides differ from the prescribed ones by at most a constant over the option, for data that some field attains; with a negative option the system is positive definite for every size. The coupling of patches adds its penalty: for every positive option the system is positive semi-definite and uniquely solvable exactly when no admissible strain-free motion without tear is left, and the tear of the solution is at most a constant over the option.", "quantifier": "all meshes, bases, quadrature rules with positive weights, loads, prescribed values, sets of eliminated dofs, option values", "why_tests_cant": "The critical option value depends on the mesh and the stiffness, so a test with one value passes or fails by accident; existence of a critical value and rates in the option quantify over all values.", "anchors": ["src/gsThinShellAssembler.hpp:565-650", "src/gsThinShellAssembler.hpp:879-916", "src/gsThinShellAssembler.hpp:1580-1609"]}
{"id": "C126", "title": "Assembled energy, forces and tangents of a moved shell", "statement": "If a deformed shell is additionally moved as a rigid body (rotation plus translation of all deformed control points, basis functions summing to one), the strain energy stays the same, the assembled internal force vector turns with the shell, and every 3x3 block of the assembled stiffness becomes Q K Q^T; a follower pressure and its matrix turn in the same way. A Newton step from the moved state under the turned load is the turned step and leads to the moved next state. Turning the whole model (undeformed shell and displacements) has the same effect. The stiffness applied to an infinitesimal rigid rotation w of the deformed shell gives w x (internal force) on every control point; so rigid rotations are null vectors of the stiffness only if the internal forces vanish or are parallel to w.", "quantifier": "all bases, quadrature rules, materials (any resultants and tangents as functions of the strains), rotations, translations, displacement states, control points", "why_tests_cant": "Agreement for one rotated load case does not exclude frame dependence for other angles, materials or curvatures; the null-space statement is about every state.", "anchors": ["src/gsThinShellAssembler.hpp:1740-1790", "src/gsThinShellAssembler.hpp:2010-2050", "src/gsThinShellAssembler.hpp:420-461", "src/gsThinShellUtils.h:102-340"]}
{"id": "C127", "title": "Mirrored shells and exchanged parameter directions", "statement": "For a wall that is symmetric about its middle surface (resultants N even and M odd in the bending strain, as obtained with a thickness rule symmetric about zero and a law even in the thickness coordinate) mirroring the shell mirrors the internal forces and the stiffness, and exchanging the two parameter directions of a patch (which reverses the normal) changes neither. For other walls the mirrored shell behaves as the mirror image only if the stacking order is reversed too; keeping the order gives different forces (refuted by a bending-stretching coupled wall). A pressure changes its sign under both operations, so the sign of a pressure load depends on the orientation of the parametrisation.", "quantifier": "all shells, bases, quadrature rules, displacement states, mirrors, symmetric walls", "why_tests_cant": "Needs the comparison of two different inputs for every geometry and material; a test fixes one parametrisation.", "anchors": ["src/gsThinShellAssembler.hpp:1740-1790", "src/gsThinShellAssembler.hpp:2010-2050", "src/gsThinShellAssembler.hpp:420-461", "src/gsMaterialMatrixIntegrate.hpp:170-260"]}
{"id": "C128", "title": "Search interval of the wrinkling angle", "statement": "Strictly inside the interval in which the wrinkling angle is searched first the sheet is stretched across the wrinkles, for every state; when the stress has no shear in the coordinate directions or equal normal stresses the sheet is also compressed along them, no admissible direction is lost (up to half turns) unless every direction is compressed, and a root found inside is returned when the strain has no shear. For other stresses directions in tension lie inside the interval and the wrinkling direction of an isotropic sheet may lie outside every candidate, and an end point equal to 0 switches the search off so that an angle that does not solve the wrinkling equation is returned.", "quantifier": "for all strains, stresses, stiffnesses and iteration budgets", "why_tests_cant": "a statement about all directions of all states; the failing states need shear and unequal normal stresses or an exact zero", "anchors": ["src/gsMaterialMatrixTFT.hpp: _theta_interval (618-776)", "src/gsMaterialMatrixTFT.hpp: eval_theta (453-578)", "src/gsMaterialMatrixTFT.hpp: mod (950-954)"]}
{"id": "C129", "title": "The plane-stress iteration converges for every compressible law", "statement": "For a compressible neo-Hookean, Mooney-Rivlin or extended neo-Hookean material, evaluating a stretched or moderately compressed state starts the thickness iteration at 1/J0^2 and from there every iterate is positive, the iterates increase from the first step on, never exceed the unique thickness with zero transverse stress, and converge to it. When 1, tr(C)/2, 1/J0^2 and 2 J0^2/tr(C) differ by at most one eighth the evaluation does not throw and the thickness component used for stress and tangent is at most the exact one and within 5e-10 of it. For the neo-Hookean law the first step leaves the positive numbers exactly when 2 mu (7 tr J - 8) + 9 K J <= 0 (given 2 tr J > 1), which does happen although the exact thickness exists.", "quantifier": "for all laws, material parameters with positive shear and non-negative bulk response, and all admissible metrics", "why_tests_cant": "convergence of an iteration over a continuum of states and materials", "anchors": ["src/gsMaterialMatrixNonlinear.hpp: _eval3D_Compressible_C33 (1885-2006), _Sij_impl, _Cijkl3D_impl"]}
{"id": "C130", "title": "Hyperelastic evaluations return the formulas of the law and answer in moderate states", "statement": "At every point with positive metric determinants the stress and matrix evaluations of a compressible material return the law's stress and condensed tensor at the thickness component found by the iteration (and throw exactly when the iteration throws), the same for the analytical and the generalized implementation; incompressible materials never throw there and return the law's stress and tensor. In a state where 1, tr(C)/2, 1/J0^2, 2 J0^2/tr(C) differ by at most one eighth a compressible material does not throw, and the thickness used is below and within 5e-10 of the one with zero transverse stress.", "quantifier": "for all laws, parameters, geometries, heights, thicknesses", "why_tests_cant": "equality of two implementations and absence of exceptions over a continuum of states", "anchors": ["src/gsMaterialMatrixNonlinear.hpp: eval3D_stress, eval3D_matrix, _eval3D_Compressible_*, _eval3D_Incompressible_*", "src/gsMaterialMatrixBaseDim.hpp: _getMetric"]}
{"id": "C131", "title": "Stretch-based results do not depend on the eigenvectors returned by the solver nor on the position of the shell in space", "statement": "For every stretch-based law (neo-Hookean, Mooney-Rivlin, extended neo-Hookean, Ogden; compressible and incompressible) the in-plane stress and the (condensed) tangent are the same for any two eigen-decompositions of the deformation tensor (signs of eigenvectors, any orthonormal pair at coincident stretches), and for an undeformed surface turned by any rotation, as long as the shortcut of _evalStretch fires in neither position. The shortcut tests two Cartesian diagonal entries, so the invariance under rotation of the undeformed surface fails in general: a state with stretches sqrt(2), sqrt(3) keeps its stress in one position and loses it in a rotated one.", "quantifier": "for all regular undeformed points, heights, deformed metrics, eigen-decompositions, laws, parameters and rotations", "why_tests_cant": "a test runs one eigen-solver with one surface position and cannot quantify over admissible eigenvector choices or rotations", "anchors": ["src/gsMaterialMatrixBaseDim.hpp:_evalStretch", "src/gsMaterialMatrixNonlinear.hpp:_Sij", "src/gsMaterialMatrixNonlinear.hpp:_Cijkl", "src/gsMaterialMatrixNonlinear.hpp:_Cabcd"]}
{"id": "C132", "title": "Hyperelastic response does not depend on the parametrisation of the surface", "statement": "If the surface is given in other regular parameters (arbitrary first derivatives with non-zero determinant and arbitrary second derivatives, also ones that turn the normal over), eval3D_stress and eval3D_matrix of every hyperelastic material (analytical, generalised and stretch-based implementations, all laws, compressible and incompressible) return the same stress and the same stiffness at the same material point: the same work on the same strain, and the same failure when they fail; the plane-stress thickness component and the strain agree as well. The same holds for planar elements and for prescribed deformation tensors. For the stress this needs that the test for unchanged metrics (gsAllCloseRelativeToMax on the contravariant metrics) gives the same answer in both parametrisations; it does not in general: a parametrisation with tangents of length 10^6 makes the stress of a plate pulled to twice its length vanish.", "quantifier": "for all regular surfaces, reparametrisations, heights, thicknesses, laws, implementations, parameters and eigen-solvers", "why_tests_cant": "a test compares finitely many parametrisations of one geometry; the statement ranges over all first and second derivatives of the change of parameters", "anchors": ["src/gsMaterialMatrixBaseDim.hpp:_getMetric", "src/gsMaterialMatrixNonlinear.hpp:eval3D_stress", "src/gsMaterialMatrixNonlinear.hpp:eval3D_matrix", "src/gsMaterialMatrixNonlinear.hpp:eval3D_stress_C", "src/gsMaterialMatrixNonlinear.hpp:eval3D_matrix_C"]}
{"id": "C133", "title": "Change of the units of length and stress", "statement": "If all lengths (geometry and thickness) are multiplied by r > 0 and all moduli (Young's modulus, Ogden coefficients) by k, then for every hyperelastic material the contravariant stress components change by k/r^2 and the stiffness components by k/r^4 exactly, the plane-stress thickness component is the same number and the iteration fails in the same cases. For the stress this needs that the test for unchanged metrics agrees in both units. It does not in general: the test compares the contravariant metrics relative to their largest entry, which includes the dimensionless entry (2,2) = 1, so for any two configurations there is a unit of length below which the stress is identically zero, while the stiffness is not.", "quantifier": "for all regular configurations, scale factors, laws, implementations, parameters, heights", "why_tests_cant": "a test fixes the units; vanishing stresses for small units appear only beyond a geometry-dependent threshold", "anchors": ["src/gsMaterialMatrixNonlinear.hpp:_eval3D_Incompressible_stress", "src/gsMaterialMatrixNonlinear.hpp:_eval3D_Compressible_stress", "src/gsMaterialMatrixNonlinear.hpp:_eval3D_Compressible_C33", "src/gsMaterialMatrixBaseDim.hpp:_getMetric"]}
{"id": "C134", "title": "The dual load of a point goal is the gradient of the goal at the points", "statement": "For a goal given by points on gsThinShellAssemblerDWR, the dual load vector, paired with any vector of free degrees of freedom, is the derivative of computeGoal(points) along the displacement field with these free values and zero prescribed values, for all goals whose pointwise dual density is right. Only functions of the first patch that are active at a point receive an entry; points contribute additively and in any order. Without points the vector is zero, but has the length of the space before it is set up for the dual problem. One component of the membrane force reads the evaluated expression outside its rows as soon as any other degree of freedom than the first is free.", "quantifier": "for all numberings, bases, point lists, goals, deformations and free vectors", "why_tests_cant": "all numberings of coupled and prescribed degrees of freedom and all directions of differentiation; tests compare a few estimates", "anchors": ["src/gsThinShellAssemblerDWR.hpp:1107-1587", "src/gsThinShellAssemblerDWR.hpp:3192-3524"]}
{"id": "C135", "title": "The assembled shell does not depend on its parametrisation", "statement": "The internal force vector and the stiffness matrix assembled on a shell whose map, basis functions and quadrature are rewritten in other parameters are the same, entry by entry and at every displacement, also if the new parameters turn the normal over and whatever the second derivatives of the parameter change are: for all hyperelastic materials (surface and planar) whose test for unchanged metrics gives the same answer, and for the linear material on surfaces; an evaluation that throws in one throws in the other. Mass and elastic foundation are unchanged, and a pressure changes sign exactly if the normal is turned over. For planar patches with the linear material the statement is false: parameters twice as fine multiply the stiffness by 256. (In its own parameters the planar linear material is consistent: the stress resultants are the matrix times the membrane strains.)", "quantifier": "for all parameter changes, point lists, bases, displacements, materials and implementations", "why_tests_cant": "invariance over all parameter changes including curved ones; tests use one parametrisation per geometry", "anchors": ["src/gsThinShellAssembler.hpp:1728-1840", "src/gsThinShellAssembler.hpp:2008-2112", "src/gsMaterialMatrixIntegrate.hpp:179-392"]}
{"id": "C136", "title": "With the linear material the assembled shell is Koiter's shell", "statement": "For a shell whose points carry the linear material, assembling the internal force vector at any displacement whose undeformed and deformed mid-surfaces are regular at the quadrature points cannot fail, and the vector is the gradient of Koiter's strain energy: half the thickness times the plane-stress energy of the change of metric plus t^3/24 times the plane-stress energy of the change of curvature, summed over the points with weight and area measure. That energy is non-negative and vanishes exactly where both strains vanish (positive weights, thickness, modulus, -1<nu<1). The assembled matrix is the derivative of the force vector that the assembler returns and is symmetric. With an incompressible hyperelastic material in its closed-form implementation the derivative of the returned force is the returned matrix plus the part through the third fundamental form described in C124, as long as the near-undeformed cut-off of the stress is not active around the state.", "quantifier": "all lists of quadrature points, basis functions, coefficients, directions, thicknesses, constants E and nu (nu not -1, 1/2, 1); hyperelastic: all laws with closed form, all closeness tests, all thickness rules", "why_tests_cant": "A test can compare a few entries with finite differences of the force at one state; it has no independent energy to compare with and cannot cover all geometries, displacements and constants.", "anchors": ["src/gsThinShellAssembler.hpp:1728-1783", "src/gsThinShellAssembler.hpp:2008-2049", "src/gsMaterialMatrixLinear.hpp:554-626", "src/gsMaterialMatrixIntegrate.hpp:179-262", "src/gsMaterialMatrixIntegrate.hpp:366-392"]}
{"id": "C137", "title": "Local matrices use one numbering of the degrees of freedom", "statement": "At a quadrature point of an element with A active basis functions the expressions of the shell module (variation of the normal, second derivatives and their products with a vector, both flattened products, second variation of the normal) store the row, column or block of component d of active function j at the same local number d*A+j, and no entry of the result keeps uninitialised contents. Hence row d*A+j of the strain variations is the derivative of the strains in the direction of that degree of freedom, and entry (d*A+j, e*A+i) of the local matrix is the derivative of entry d*A+j of the local vector in the direction of component e of function i. Adding the local matrices and vectors of all elements through the numbers of their active functions gives the gradient of the total energy and its Jacobian, symmetric when the material tangents are, independent of the order of the elements, and zero between functions that share no element. For a displacement variable (not a space) deriv2 returns the second derivatives of the first point of the element whatever point is evaluated, unlike deriv2dot. On element edges the variations of the tangent, of the outer normal and their products use the same numbers: row d*A+j is the derivative of the edge vector in that direction, and entry (d*A+j, e*A+i) its second derivative.", "quantifier": "all numbers of active functions, values of their derivatives, geometries, components, resultants and tangents, previous contents of the result matrices, lists and orders of elements, numberings of the active functions", "why_tests_cant": "A wrong offset in one of the expressions permutes entries only for some element sizes, and reading an unset entry gives what the memory held; a test with one degree and one mesh sees one layout.", "anchors": ["src/gsThinShellUtils.h:148-175", "src/gsThinShellUtils.h:422-467", "src/gsThinShellUtils.h:1327-1373", "src/gsThinShellUtils.h:1499-1576", "src/gsThinShellUtils.h:1656-1734", "src/gsThinShellAssembler.hpp:1745-1783", "src/gsThinShellAssembler.hpp:2020-2049", "src/gsThinShellUtils.h:725-787", "src/gsThinShellUtils.h:930-962", "src/gsThinShellUtils.h:1031-1168"]}
{"id": "C138", "title": "The tension field is the material of a membrane without compression", "statement": "With a linear inner material (symmetric positive definite moduli) every in-plane strain is taut, slack or wrinkled, and the least energy of the inner material over all added non-negative wrinkle strains exists and is unique. With SlackMultiplier 0 (the default) the stress returned for a rightly described strain is the stress of that minimiser: it is compressive in no direction, does no work on the wrinkles and is the gradient of the relaxed energy along every differentiable strain path, including at the transitions between the states. It is monotone and changes in energy norm no more than the strain does, so it is continuous across the states and independent of the angle chosen. The default criterion (TensionField 2) describes the strain rightly except inside its tolerance or at a principal strain of exactly 0; the strain-only and stress-only criteria do not, and a positive SlackMultiplier lets slack points carry compression. The derivative of the wrinkled stress is symmetric and non-negative, the matrix returned by the code is not symmetric in general.", "quantifier": "all symmetric positive definite moduli, all strains, all differentiable strain paths, all angles and search results meeting the stated contract", "why_tests_cant": "Energy minimality and the gradient property at the transitions quantify over all wrinkle strains and all paths; a test compares a few strains, and at a transition finite differences straddle two branches of the code.", "anchors": ["src/gsMaterialMatrixTFT.hpp:155-196", "src/gsMaterialMatrixTFT.hpp:366-409", "src/gsMaterialMatrixBaseDim.hpp:293-393"]}
{"id": "C139", "title": "The assembled tension-field membrane derives from a relaxed energy", "statement": "For a membrane whose points carry a tension-field material with linear inner material, assembling the internal force vector cannot fail as long as the search finds a direction for every wrinkled strain, whatever the deformed surface. With SlackMultiplier 0, or no slack point, the vector is the gradient of the total relaxed energy, also when points sit at a transition. Away from the transitions the force vector is differentiable in every direction with a symmetric derivative, and the assembled matrix is this derivative plus one coupling term per wrinkled point; it is the derivative exactly if the moduli do not couple the wrinkling direction to the shear across it, as for an isotropic material in an orthonormal parametrisation.", "quantifier": "all membranes (any number of points and basis functions, weights, thicknesses), all displacements, all directions, all moduli", "why_tests_cant": "Whether the assembled force is conservative and whether the assembled matrix is its Jacobian depends on every direction and on points at the transitions; a test checks one mesh at one state.", "anchors": ["src/gsThinShellAssembler.hpp:1817-1835", "src/gsThinShellAssembler.hpp:2106-2110", "src/gsMaterialMatrixTFT.hpp:155-196", "src/gsMaterialMatrixTFT.hpp:366-409"]}
{"id": "C140", "title": "Reported wrinkles and accuracy of a tension-field stress with an approximate angle", "statement": "For the tension-field material with a linear inner material, the angle and the amount of wrinkling reported by the theta and gamma outputs explain the strain and stress outputs: strain = deformation strain + gamma n(x)n, stress = inner stress of that strain, without component along n; taut and slack points report no angle. If the angle only approximately solves the wrinkling equation, but the reported amount is not negative and the reported stress is tensile across the wrinkles, then the reported stress differs from the exact tension-field stress (whatever the exact state: taut, slack or wrinkled) by the inner stress of a strain whose energy is at most (f^2/s)(gamma + f^2/(2 s lambda)), f the reported shear, s the reported tension, lambda a lower bound of the stiffness; the energy of the reported strain exceeds the relaxed energy by at most twice that. Without the sign check a solved equation can give a compressive stress. Where no angle is reported the strain is that of the deformation, times the slack multiplier at slack points, and the stress is the inner stress of that strain.", "quantifier": "all symmetric positive definite moduli, strains, angles, search results, stiffness bounds and exact states", "why_tests_cant": "The search stops at a tolerance; tests compare with one reference angle and cannot bound the error of the stress for every modulus, strain and tolerance.", "anchors": ["src/gsMaterialMatrixTFT.hpp:116-196", "src/gsMaterialMatrixTFT.hpp:303-364", "src/gsMaterialMatrixTFT.hpp:579-592", "src/gsMaterialMatrixTFT.hpp:803-834"]}
{"id": "C141", "title": "Weakly coupled patches of a moved structure", "statement": "For patches that are coupled weakly along an interface (C0 penalty, C1 out-of-plane and in-plane penalty of the nonlinear 3D assembly): if the deformed structure, both patches together, undergoes a further rigid motion x -> Q x + b, the assembled coupling forces turn with it and every 3x3 block of the coupling matrix, also the blocks between the patches, becomes Q K Q^T, provided that the undeformed patches meet along the interface when the C0 coupling is on; a rigid motion of the undeformed structure causes no coupling forces; turning or mirroring the whole model turns or mirrors the terms; the coupling forces on both patches have no net force and, if the patches meet, no net moment; the edge of a patch is found identically in the moved structure. With a gap between the undeformed patches a rigid rotation does cause coupling forces, since the difference of the displacements is penalised.", "quantifier": "all pairs of bases and control points, all displacements, rotations and translations, all interface points, weights and strain-dependent penalty factors, both coupling switches", "why_tests_cant": "A test can rotate one example by one angle; the statement is about all configurations, and the exact condition (patches that meet) is invisible in tests with conforming patches.", "anchors": ["src/gsThinShellAssembler.hpp:1024-1228", "src/gsThinShellUtils.h:700-1163"]}
{"id": "C142", "title": "Change of units of the assembled problem", "statement": "If every length of a shell problem (control points, displacements, thickness) is expressed in a unit r times smaller and every modulus and load per area in a unit k times smaller, then every assembled internal force is multiplied by k r^2, every stiffness entry (nonlinear and linear) by k r, mass entries by s r^3 (s the factor of the density), loads and live pressure by k r^2; the solutions of the linear problem, of every Newton step and the equilibrium states are the same up to r, and the squares of the natural frequencies are multiplied by k/(s r^2). Elastic foundation, weak Dirichlet terms, the automatic interface penalties and the coupling forces follow the same law. The coupling matrix of the C1 term follows it exactly at points where the in-plane angle difference vanishes (in particular in the undeformed state) and not in general, and the weakly clamped edge terms do not follow it: their matrix has a term with another power of length, and its right-hand side scales differently.", "quantifier": "all bases, point lists, displacements, linear and general section laws of the right dimension, all r, k, s > 0, all penalty parameters", "why_tests_cant": "A test can compare two unit systems on one example; an additional term of the wrong physical dimension vanishes in the undeformed and in symmetric examples.", "anchors": ["src/gsThinShellAssembler.hpp:1024-1900", "src/gsThinShellUtils.h:60-1163", "src/gsMaterialMatrixLinear.hpp:434-626"]}
{"id": "C143", "title": "A structure of weakly coupled patches as a whole", "statement": "For a structure of any number of patches that are coupled weakly along any number of interfaces (3D shells with bending): if the whole deformed structure undergoes a rigid motion and the loads turn with it, the vector of assembleVector turns and every 3x3 block of the matrix of assembleMatrix, within and between patches, becomes Q K Q^T; Newton's method then makes the turned steps and passes through the moved states, and equilibrium states are mapped to equilibrium states and back. The loads that hold a structure in equilibrium have no resultant force and no resultant moment about any axis, if the undeformed patches meet where their displacements are coupled. With a gap between the undeformed patches the moments need not balance. If only displacements are coupled and the penalty factors do not follow the deformation, the matrix is minus the derivative of the vector in every direction, across the interfaces as well. With symmetric section tangents the matrix is symmetric, within and between patches, for coupled displacements in every regular state and for coupled rotations where the state leaves the in-plane angles at the interface as they were, in particular in the undeformed state. For coupled displacements the quadratic form of the matrix is that of the separate patches plus the penalty times the squared jump at the interfaces, so that coupling never softens the structure.", "quantifier": "all numbers of patches and interfaces, bases, control points, displacements, loads, rotations and translations, section laws and penalty factors", "why_tests_cant": "Tests rotate one example with one or two patches; a coupling block written to the wrong patch or a missing transposed block keeps symmetric examples correct.", "anchors": ["src/gsThinShellAssembler.hpp:1712-1790", "src/gsThinShellAssembler.hpp:1989-2060", "src/gsThinShellAssembler.hpp:1018-1228"]}
