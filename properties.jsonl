{"id": "C01", "title": "Polygon moments are exact", "statement": "marin_integration(y, z, m, n) on a closed polygon returns exactly the signed area moment: the sum over the edges of the integral of y^m z^n over the oriented triangle (origin, vertex i, vertex i+1), i.e. the Green's-theorem boundary integral of y^m z^n; the area is the shoelace area.", "quantifier": "every vertex list (any length, convex or not, self-intersecting or not) and every pair of non-negative exponents m, n", "why_tests_cant": "a test samples a few polygons and a few exponents; the formula has to hold for unboundedly many vertices and degrees", "anchors": ["structuralcodes/core/_marin_integration.py:_coeff", "structuralcodes/core/_marin_integration.py:marin_integration"]}
{"id": "C02", "title": "Polygon moments respect orientation, start vertex and cuts", "statement": "Reversing the vertex order negates marin_integration, starting at another vertex leaves it unchanged, and cutting a polygon along a chord gives two polygons whose moments add up to the original; scaling by a scales moment (m,n) by a^(m+n+2).", "quantifier": "every closed vertex list, every rotation of it, every chord, all exponents", "why_tests_cant": "unboundedly many polygons and chords", "anchors": ["structuralcodes/core/_marin_integration.py:marin_integration"]}
{"id": "C03", "title": "Rectangles get their textbook section constants", "statement": "RectangularGeometry(width, height, origin) rejects non-positive sizes and otherwise yields a counter-clockwise rectangle whose marin moments are the iterated integrals of y^m z^n over its box; in particular area = width*height, first moments = area*origin and second moments about the origin w*h^3/12 and w^3*h/12 when centred.", "quantifier": "all widths, heights, origins, exponents", "why_tests_cant": "infinitely many sizes and exponents", "anchors": ["structuralcodes/geometry/_rectangular.py:RectangularGeometry", "structuralcodes/core/_marin_integration.py:marin_integration"]}
{"id": "C04", "title": "Strain snapping moves a strain only onto a limit it is close to", "statement": "preprocess_strains_with_limits returns a scalar strain unchanged unless it is within the tolerance (1e-6 + 1e-5*|limit|) of a limit, in which case it returns exactly that limit (the maximum wins if both match); the result differs from the input by at most the tolerance and snapping twice is snapping once. On an array it acts element by element whenever the two limits are further apart than the tolerance. (Deviation, proved: for limits within tolerance of each other the array branch lets the minimum win, so array and scalar disagree.)", "quantifier": "all strains, limit pairs and array lengths", "why_tests_cant": "the interesting inputs are the open neighbourhoods of the limits", "anchors": ["structuralcodes/core/base.py:ConstitutiveLaw.preprocess_strains_with_limits"]}
{"id": "C05", "title": "Scalar and array evaluation of a constitutive law agree", "statement": "get_stress / get_tangent of an array equals the array of get_stress / get_tangent of its elements for Elastic, ElasticPlastic, ParabolaRectangle with |eps_0|<=|eps_u|, BilinearCompression (stress everywhere, tangent at every strain other than 0 and the peak strain), Popovics, UserDefined, and for Sargin at every strain at which the scalar call returns. (Deviations, each proved by a counterexample: the bilinear tangent at 0 / the peak; ParabolaRectangle with |eps_u|<|eps_0|; a Sargin scalar call raises ZeroDivisionError at one tensile strain where the array call answers 0.)", "quantifier": "every law with valid parameters, every strain array", "why_tests_cant": "masks and branches are written twice; disagreement shows up only at isolated boundary strains tests rarely hit", "anchors": ["structuralcodes/materials/constitutive_laws/_elastic.py", "structuralcodes/materials/constitutive_laws/_elasticplastic.py", "structuralcodes/materials/constitutive_laws/_parabolarectangle.py", "structuralcodes/materials/constitutive_laws/_bilinearcompression.py", "structuralcodes/materials/constitutive_laws/_sargin.py", "structuralcodes/materials/constitutive_laws/_popovics.py"]}
{"id": "C06", "title": "get_tangent is the derivative of get_stress", "statement": "In the interior of every branch of a law, get_tangent(eps) is the mathematical derivative of get_stress at eps.", "quantifier": "every law with valid parameters, every strain away from the branch boundaries and the snapping zones", "why_tests_cant": "an analytic statement about all real strains", "anchors": ["structuralcodes/materials/constitutive_laws"]}
{"id": "C07", "title": "Stress laws have the documented shape", "statement": "Elastic stress is E*eps and odd; ElasticPlastic is linear up to yield, follows the hardening line to the ultimate strain, is zero beyond it and, for non-negative hardening, is odd, continuous, non-decreasing and bounded; concrete laws (parabola-rectangle, bilinear, Sargin, Popovics) give no tension, stay between -|fc| and 0 (Sargin: up to the strain where its formula changes sign), reach the peak at the peak strain and vanish beyond the crushing strain; each law reports the ultimate strains it was built with. (Deviations, proved: with softening Eh<0 ElasticPlastic is not odd; BilinearCompression with its default eps_cu=None raises TypeError.)", "quantifier": "all valid parameters and all strains", "why_tests_cant": "shape statements over all reals", "anchors": ["structuralcodes/materials/constitutive_laws"]}
{"id": "C08", "title": "Piecewise polynomial coefficients reproduce the stress-strain law", "statement": "For every law offering __marin__: along any linear strain field a0+a1*y, in every returned strain range the polynomial in y with the returned coefficients equals the stress of the strain and outside all ranges the stress is zero - with the law's own stress for Elastic, ElasticPlastic with an ultimate strain, ParabolaRectangle with n=2, BilinearCompression and UserDefined, and with the polygon through the law's stresses at the tenths of its ultimate strain for the laws using the default discretisation (Sargin, Popovics, ParabolaRectangle with any other exponent). The same for __marin_tangent__ and the tangent (off the break points). (Deviations, proved: without an ultimate strain ElasticPlastic is described only up to twice the yield strain; between the tenths the default form is not the law itself.)", "quantifier": "every law parameter, every strain field, every ordinate", "why_tests_cant": "infinitely many strain fields; branch boundaries", "anchors": ["structuralcodes/core/base.py:_discretize_law,__marin__,__marin_tangent__", "structuralcodes/materials/constitutive_laws:__marin__,__marin_tangent__"]}
{"id": "C09", "title": "Secant modulus times strain gives the stress", "statement": "For scalars get_secant(eps)*eps = get_stress(eps) for non-zero strain and get_secant(0) is the tangent at 0, for every law; for arrays get_secant is the element-by-element scalar secant for every law whose array evaluation is elementwise (C05), e.g. ParabolaRectangle and ElasticPlastic. (Deviation, proved: for BilinearCompression the array secant at 0 differs from the scalar one.)", "quantifier": "all laws, all strains, all arrays", "why_tests_cant": "quantifies over all reals and all arrays", "anchors": ["structuralcodes/core/base.py:ConstitutiveLaw.get_secant"]}
{"id": "C10", "title": "Evaluating a law changes the caller's array only by snapping", "statement": "Calling get_stress with an array replaces in the caller's array exactly the strains within tolerance of a limit by that limit (a change of at most the tolerance) and nothing else; hence, when no strain is within tolerance of a limit of any law involved, evaluating any laws one after the other on the same array leaves it unchanged and every law answers as if evaluated alone, in any order. (Deviation from 'input data are not modified', proved: near a limit the caller's array is rewritten, and the result of a second law then depends on the order.)", "quantifier": "all laws, arrays and orders", "why_tests_cant": "aliasing effects depend on call histories", "anchors": ["structuralcodes/core/base.py:ConstitutiveLaw.preprocess_strains_with_limits", "structuralcodes/materials/constitutive_laws/_parallel.py:Parallel.get_stress"]}
{"id": "C11", "title": "Parallel material is the weighted sum of its constituents", "statement": "Parallel rejects mismatching weights, and otherwise its stress and tangent are the weighted sums of those of its constituents (scalars, and arrays the constituents leave unchanged); its ultimate strain limits are the smallest minimum and largest maximum of theirs; merging the Marin forms always succeeds and, when either all or none of the constituents return strain ranges, the merged form describes the weighted sum at every strain that is not a break point. (Deviation, proved: with an elastic and a concrete constituent, one without and one with ranges, the merged form loses the elastic stress outside the concrete's ranges.)", "quantifier": "any number of laws, any weights, any strain", "why_tests_cant": "unbounded list of laws with arbitrary range overlaps", "anchors": ["structuralcodes/materials/constitutive_laws/_parallel.py"]}
{"id": "C12", "title": "Initial-strain wrapper shifts the wrapped law", "statement": "With strain compatibility, InitialStrain gives stress wrapped(eps+eps0), tangent wrapped'(eps+eps0), an ultimate range shifted by -eps0, and at zero strain the stress of the initial strain; without it the stress is the constant initial stress. Its Marin form describes the same law whenever the wrapped form carries no strain ranges (uniform strain), and the caller's strain is left alone. (Deviations, proved: with a strain gradient the ranges are not shifted by eps0; without strain compatibility the Marin form ignores the constant stress.)", "quantifier": "every wrapped law, initial strain and strain", "why_tests_cant": "all laws and strains", "anchors": ["structuralcodes/materials/constitutive_laws/_initial_strain.py"]}
{"id": "C13", "title": "User-defined law interpolates its points", "statement": "UserDefined rejects lists of different length and unknown flags; otherwise it passes through each given (strain, stress) point that is not within the snapping tolerance of a limit, is linear between neighbours, follows the selected extension (zero, constant, tangent, secant) up to 100 times the last strains, equals its odd completion when the strains start at the origin, has the given or default limits, and its Marin form is the same function. (Deviations, proved: extensions stop at 100 times the last strains; non-negative data not starting at the origin are not completed to an odd function; a point within tolerance of a limit is missed.)", "quantifier": "every strictly increasing point list of any length", "why_tests_cant": "unbounded table sizes", "anchors": ["structuralcodes/materials/constitutive_laws/_userdefined.py"]}
{"id": "C14", "title": "Initial stress is converted to a matching initial strain", "statement": "A Material given both initial_strain and initial_stress is rejected; given an initial stress, the strain found satisfies |law(strain) - stress| <= 1e-12 or an exception is raised; nothing else can be returned.", "quantifier": "every constitutive law and target stress", "why_tests_cant": "Newton iteration over arbitrary functions", "anchors": ["structuralcodes/core/base.py:Material"]}
{"id": "C15", "title": "Global design code changes only as requested", "statement": "After any sequence of set_design_code / set_national_annex / get_* / factory calls the active code is the last one validly selected by set_design_code (None resets) or passed to a material factory, an invalid selection raises and leaves the state unchanged, and a factory called without a code leaves it unchanged. (Deviation from 'factories do not touch global state', proved: a material factory called with design_code changes the active code, even when it then raises.)", "quantifier": "all call histories", "why_tests_cant": "histories are unbounded; state leaks appear only in particular orders", "anchors": ["structuralcodes/codes/__init__.py", "structuralcodes/materials/concrete/__init__.py", "structuralcodes/materials/reinforcement/__init__.py"]}
{"id": "C16", "title": "Material factories give the material of the selected code", "statement": "create_concrete / create_reinforcement return an object of the class registered for the requested or active design code; they raise when there is no code, the code is invalid or the class' constructor refuses the data; they return nothing exactly when the code has no registered class. (Deviation from 'never silently return nothing', proved: mc2020 is a listed design code without registered classes.)", "quantifier": "all registered codes, all call histories", "why_tests_cant": "history dependent", "anchors": ["structuralcodes/materials/concrete/__init__.py", "structuralcodes/materials/reinforcement/__init__.py"]}
{"id": "C17", "title": "Constitutive-law and integrator factories", "statement": "create_constitutive_law resolves every registered lower-case name that the material supports to that law fed with the material's parameters, and rejects unknown names and laws the material does not support; integrator_factory always yields the integrator registered under the name in any letter case, Marin for unknown names, whatever was created before. (Deviations, proved: a registered law name in mixed case is rejected although the lookup lower-cases it; userdefined and parallel are registered but not reachable by name.)", "quantifier": "all strings, all call histories", "why_tests_cant": "all strings and histories", "anchors": ["structuralcodes/materials/constitutive_laws/__init__.py", "structuralcodes/sections/section_integrators/_factory.py"]}
{"id": "C18", "title": "Reinforcement design curve hits its design points", "statement": "For positive data with consistent strains the law produced from a reinforcement material passes through (epsyd, fyd) and (epsud, ftd) (the perfectly plastic law stays at fyd) and vanishes beyond epsud; safety factors below 1 and a zero modulus are rejected; the ductility classes have the code's ratios and strains. (Deviations, proved: inconsistent data (epsud<epsyd, ftk<fyk) and a factor 0 (replaced by the default) are accepted; setting epsuk afterwards does not update the law.)", "quantifier": "all valid fyk, ftk, Es, gammas and strains", "why_tests_cant": "real-valued parameter space", "anchors": ["structuralcodes/materials/reinforcement/_reinforcementMC2010.py", "structuralcodes/materials/reinforcement/_reinforcementEC2_2004.py", "structuralcodes/materials/reinforcement/_reinforcementEC2_2023.py"]}
{"id": "C19", "title": "Fibre integration is exact equilibrium of fibre forces", "statement": "The fibre integrator returns N = sum sigma_i A_i, My = sum sigma_i A_i z_i, Mz = -sum sigma_i A_i y_i at strain e0 + ky z_i - kz y_i for every fibre; result does not depend on how fibres are grouped by material.", "quantifier": "all sections (any number of surfaces, bars, fibres), strain profiles", "why_tests_cant": "unbounded meshes", "anchors": ["structuralcodes/sections/section_integrators/_fiber_integrator.py"]}
{"id": "C20", "title": "Fibre stiffness matrix is the derivative of the forces", "statement": "integrate_modulus is symmetric, positive semidefinite for non-negative tangents, is the Jacobian of the integrated forces with respect to the strain profile, and for linear elastic fibres K*profile equals the integrated forces exactly.", "quantifier": "all meshes and strain profiles", "why_tests_cant": "unbounded meshes, analytic statement", "anchors": ["structuralcodes/sections/section_integrators/_fiber_integrator.py"]}
{"id": "C21", "title": "Marin integration of a stress field is exact", "statement": "For a section and strain profile, the Marin integrator's N, My, Mz and tangent stiffness equal the integrals of the stress (tangent) field over the polygons cut at the strain limits, plus the bars' point contributions, expressed in the user's axes (work-conjugate rotation), and do not depend on the orientation of the axes: turning the section and the bending axis together turns the moments along and keeps the axial force; provided every bar material has the same number of bars; reusing the prepared data gives the same result. (Deviations, proved: bars of two materials in different numbers raise ValueError; with uniform strain inside the snapping tolerance the order of the surfaces changes the result.)", "quantifier": "all polygons, laws with piecewise polynomial stresses, strain profiles", "why_tests_cant": "continuous families of inputs", "anchors": ["structuralcodes/sections/section_integrators/_marin_integrator.py"]}
{"id": "C22", "title": "Fixed-curvature equilibrium is balanced", "statement": "find_equilibrium_fixed_curvature always keeps the requested curvature, terminates within its iteration limits and raises only ValueError; when the section response does not decrease with the axial strain and the load is not hit exactly at a point of the search grid, every returned profile balances the load within 1e-2, a profile is returned whenever the response is Lipschitz and the load is reachable, and ValueError is raised if no balanced profile exists. (Deviations, proved: when the load is hit exactly at a grid point, or the materials soften, the returned profile can be unbalanced.)", "quantifier": "every section response function, axial load and curvature", "why_tests_cant": "arbitrary nonlinear responses, any number of iterations", "anchors": ["structuralcodes/sections/_generic.py:GenericSectionCalculator.find_equilibrium_fixed_curvature", "structuralcodes/sections/_generic.py:GenericSectionCalculator._prefind_range_curvature_equilibrium"]}
{"id": "C23", "title": "Fixed-pivot equilibrium is balanced", "statement": "find_equilibrium_fixed_pivot returns a profile passing through one of the two pivots; when the axial force changes sign between balanced failure and (near) zero curvature and is not hit exactly at a search-grid point the profile balances the load within 1e-2, and for Lipschitz responses one is returned. (Deviation, proved: with an exact hit the returned profile can be unbalanced.)", "quantifier": "every section response function and axial load", "why_tests_cant": "arbitrary nonlinear responses", "anchors": ["structuralcodes/sections/_generic.py:GenericSectionCalculator.find_equilibrium_fixed_pivot"]}
{"id": "C24", "title": "Section results do not depend on earlier calls", "statement": "With the Marin integrator, or with the fibre integrator at one mesh size, the result of any analysis depends only on the section and the arguments, for every history of analyses that did not raise. (Deviations, proved: after an analysis that raised, the rotated triangulation stays cached and later results differ; calculate_strain_profile caches a default-size mesh, so with another mesh size later results differ.)", "quantifier": "all call histories", "why_tests_cant": "only particular histories expose stale cached integration data", "anchors": ["structuralcodes/sections/_generic.py:GenericSectionCalculator"]}
{"id": "C25", "title": "A user-selected mesh size is used", "statement": "After any history of analyses other than calculate_strain_profile the triangulation used by an analysis is the one for the mesh_size given to it, and sizes outside (0,1] are rejected. (Deviation, proved: calculate_strain_profile ignores the given mesh_size and leaves its own mesh behind.)", "quantifier": "all call histories and sizes", "why_tests_cant": "history dependent", "anchors": ["structuralcodes/sections/_generic.py", "structuralcodes/sections/section_integrators/_fiber_integrator.py"]}
{"id": "C26", "title": "Strain-profile solver returns only converged states", "statement": "calculate_strain_profile returns a strain profile only if the last increment is within tolerance; for a linear-elastic section it returns the exact solution of K e = F; otherwise it raises StopIteration after max_iter.", "quantifier": "all sections, load vectors, tolerances, iteration limits", "why_tests_cant": "arbitrary responses, any number of iterations", "anchors": ["structuralcodes/sections/_generic.py:GenericSectionCalculator.calculate_strain_profile"]}
{"id": "C27", "title": "Balanced-failure profile never over-strains any fibre", "statement": "get_balanced_failure_strain returns a linear profile in which every material point of the section stays within its ultimate strains and at least two of the limits are attained.", "quantifier": "all sections with any number of geometries and points, all ultimate strains", "why_tests_cant": "unbounded number of geometries", "anchors": ["structuralcodes/sections/_generic.py:GenericSectionCalculator.get_balanced_failure_strain"]}
{"id": "C28", "title": "Axial load limits", "statement": "check_axial_load rejects exactly the loads outside [n_min, n_max]; cached n_min/n_max equal a fresh computation after any history; for materials whose stress does not decrease with strain they are the smallest and largest axial force over all admissible strain profiles. (Deviation, proved: for softening laws a larger axial force exists.)", "quantifier": "all sections and histories of calls", "why_tests_cant": "history dependent", "anchors": ["structuralcodes/sections/_generic.py:GenericSectionCalculator.calculate_limit_axial_load"]}
{"id": "C29", "title": "Interaction-domain sampling covers the domain", "statement": "The strain-profile sampling of the N-M and N-M-M domains produces for each field its share of the requested total (or the minimum), a total of at least the requested one less 5; profile by profile, fields 1 and 2 keep the ultimate tensile strain and run the compressive strain to its limit, fields 3 to 5 keep the ultimate compressive strain and run the other one to the value at which the lowest vertex is unstrained, field 6 runs from there to uniform strain (about the pivot in reinforced concrete), with the spacing asked for; it ends with uniform compression and starts with uniform tension (linear spacing, or at least two profiles in the first field), stays within the ultimate strains of every part that tolerates the uniform end strains, goes round all the directions asked for, and the forces reported are the resultants of the profiles; negative counts are refused. (Deviations, proved: the requested total can be missed; the first end profile can be missing; limits are exceeded for parts with other limits; field_num of the N-M-M domain is incomplete.)", "quantifier": "all requested counts, spacings and sections", "why_tests_cant": "integer rounding and endpoint effects for all counts", "anchors": ["structuralcodes/sections/_generic.py:_process_num_strain_profiles", "structuralcodes/sections/_generic.py:_np_space"]}
{"id": "C30", "title": "Gross section properties obey the classical theorems", "statement": "For every section made of connected surfaces with non-zero stiffness the gross properties are the integrals they name, additive over surfaces, with area-weighted (EA-weighted) centroid, Steiner's theorem, translation invariance, and principal inertias equal to the extreme inertias over all directions (sum and product preserved); zero initial stiffness is rejected. (Deviations, proved: the principal angle can have the wrong sign; a section of separate polygons raises AttributeError.)", "quantifier": "all compound sections", "why_tests_cant": "unbounded", "anchors": ["structuralcodes/sections/_generic.py:GenericSectionCalculator._calculate_gross_section_properties"]}
{"id": "C31", "title": "Rigid motions are isometries and preserve identity", "statement": "translate, rotate (about a point, in degrees or radians) and mirror (about an axis through two different points) are isometries: rotation turns about the given centre by the given angle, mirroring gives the mirror image; they compose as expected and mirroring twice is the identity; every surface and bar is moved vertex by vertex, areas are preserved and material, density, concrete flag of surfaces, and diameter, material, name and label of bars are carried over. (Surfaces lose name and group label: C31_surface_labels_refuted.)", "quantifier": "all geometries with any number of surfaces, holes and bars; all motions", "why_tests_cant": "continuous families", "anchors": ["structuralcodes/geometry/_geometry.py"]}
{"id": "C32", "title": "Reinforcement layouts put the bars where asked", "statement": "add_reinforcement_line between two different points puts all bars on the segment, centred, equally spaced: exactly n bars (n>=2, or n and s), or the maximal number at spacing s, refusing when they do not fit or neither is given; first/last flags omit just the end bars. add_reinforcement_circle puts all bars on the circle inside the arc in equal angular steps, n or the maximal number of them, with no two coincident bars except the documented case of spacing only round the full circle with s dividing the circumference, where the last coincides with the first. The geometry gains exactly those bars with the given diameter, material and label and keeps everything else. (One bar by number alone: nan / ZeroDivisionError, refutation theorems.)", "quantifier": "all segments of positive length, circles of positive radius, arcs up to 2 pi, counts, spacings, flags, geometries", "why_tests_cant": "continuous families, rounding", "anchors": ["structuralcodes/geometry/_reinforcement.py"]}
{"id": "C33", "title": "Compound geometry bookkeeping", "statement": "Building compound geometries from nested lists keeps every surface and point exactly once in order; addition concatenates and is associative in content; area is the sum of the surface areas; extents are the tightest box round the vertices of all surfaces; subtraction keeps order, materials and bars and subtracts from every surface; reinforced_concrete tells whether some surface is concrete, on every read; MultiPolygons give one surface per polygon with matching materials or are refused. (Extents ignore bars, subtraction loses a user-given flag and label, a MultiPolygon without materials is dropped silently and its reinforced_concrete raises: refutation theorems.)", "quantifier": "all nested lists of geometries, all polygons", "why_tests_cant": "unbounded nesting", "anchors": ["structuralcodes/geometry/_geometry.py:CompoundGeometry"]}
{"id": "C34", "title": "EC2/MC2010 concrete strength relations", "statement": "MC2010, EC2:2004 and EC2:2023 concrete formulas: fctm cubed is 0.027 fck^2 up to 50 MPa and 2.12 ln(1+fcm/10) (2023: 1.1 fck^(1/3)) above, positive, increasing on each side of 50 MPa but not across it; the 5% and 95% fractiles are symmetric about the mean; fcm is above fck; moduli are the stated roots of fcm, increasing, with unknown aggregates and out-of-range kE rejected; MC2010 strain tables give the broken line through Table 5.1-8 inside 12-120 MPa, ordered and monotone, and ValueError outside; peak strains never exceed limit strains (parabola-rectangle: up to 89.9 MPa, false at 90); fcd = alpha fck/gamma, at most fck when alpha <= gamma, and in EC2:2023 always accepted with the code's own eta_cc, k_tc and at most fck; EC2:2023 creep and shrinkage tables return a value exactly inside the ages/strengths of the class and 100-1000 mm, within the table's range and equal to its entries at the nodes; A_phi is always accepted by the creep correction, which is 1 at 35 MPa and decreasing; class and atmosphere names are accepted in any case and with surrounding blanks, other names rejected. Fracture energy, notional size, strain limits, unit weights and Es have the values of the codes' formulas. The thermal expansion coefficients are ten times 10e-6 (refuted).", "quantifier": "all strengths, coefficients, ages, sizes, strings and every interpolation meeting the griddata contract", "why_tests_cant": "real-valued parameters", "anchors": ["structuralcodes/codes/mc2010/_concrete_material_properties.py", "structuralcodes/codes/ec2_2004/_concrete_material_properties.py", "structuralcodes/codes/ec2_2023/_section5_materials.py"]}
{"id": "C35", "title": "Time development of strength", "statement": "Strength development. EC2:2004 beta_cc is exp(s(1-sqrt(28/t))): 1 at 28 days, positive, strictly increasing and tending to exp(s) from below; beta_ct is beta_cc before 28 days and its power 2/3 from then on, increasing, 1 and without a jump at 28 days, and its array form is the scalar form entry by entry; beta_E, the modulus from mean strengths and the tension strength over time agree with them; classes R, N, S are accepted in either case with surrounding blanks and nothing else is; MC2010's function is the same with s by cement class (any case), KeyError for unknown classes, except above 60 MPa where the class is ignored; beta_e squared is beta_cc.", "quantifier": "all ages, exponents, strengths and class strings", "why_tests_cant": "real-valued", "anchors": ["structuralcodes/codes/ec2_2004/_concrete_material_properties.py:beta_cc", "structuralcodes/codes/ec2_2004/_concrete_material_properties.py:beta_ct", "structuralcodes/codes/ec2_2004/_concrete_material_properties.py:s_time_development", "structuralcodes/codes/mc2010/_concrete_material_properties.py:beta_cc"]}
{"id": "C36", "title": "Creep and shrinkage functions are bounded and monotone", "statement": "Creep and shrinkage of EC2:2004 and MC2010. Development functions are 0 until the start of drying or loading, in [0,1), strictly increasing after it and tend to 1 (MC2010 basic creep: logarithmic, unbounded); total EC2 shrinkage and creep never fall in time and stay below their final values; strength factors are 1 at 35 MPa and decreasing and EC2's phi_RH and beta_H have no jump there; k_h is the broken line of its table between 1 and 0.7; MC2010 relative humidity as a fraction in [0.4,1] or the same in percent gives the same result, everything else is rejected, and beta_RH then always has a value; adjusted ages are at least 0.5 days and ordered slow <= normal <= rapid; equivalent ages are additive over periods, grow with temperature, and reject mixed or unequal-length arguments; MC2010 creep is enlarged monotonically from 0.4 to 0.6 fcm and rejected beyond; EC2 cement letters are case-insensitive (blanks ignored only for drying shrinkage), MC2010 cement names are exactly six strings, KeyError otherwise.", "quantifier": "all ages, sizes, humidities, strengths, stresses, histories and class strings", "why_tests_cant": "real-valued", "anchors": ["structuralcodes/codes/ec2_2004/_concrete_creep_and_shrinkage.py", "structuralcodes/codes/mc2010/_concrete_creep_and_shrinkage.py"]}
{"id": "C37", "title": "EC2:2004 shear resistance bounds and round trip", "statement": "EC2:2004 shear. k is in (1,2], 2 up to 200 mm and (k-1)^2 d = 200 above; the reinforcement ratio is capped at 0.02 and the axial stress at 0.2 fcd; VRdc is the largest of 0, the reinforcement term and the minimum term and never falls when reinforcement is added (a CRdc of None or 0 means 0.18/gamma_c); alpha_cw is the piecewise function of sigma/fcd, in (0, 1.25], continuous, rejected from sigma = fcd on; shear-tension resistance squared is as in the code and negative roots are rejected; reduction factors are ordered, continuous and in range; the strut angle is accepted exactly for cotangents in [0.995, 2.505]; required stirrup area and stirrup resistance are inverse; the strut resistance with vertical stirrups is a*bw*z*nu*fcd*sin*cos, at most half, reached at 45 degrees; the largest useful stirrup area resists exactly the strut limit at 45 degrees.", "quantifier": "all geometry, stresses and angles", "why_tests_cant": "real-valued", "anchors": ["structuralcodes/codes/ec2_2004/shear.py"]}
{"id": "C38", "title": "EC2:2004 crack control bounds", "statement": "w_max follows Table 7.1N for words in any case with surrounding white space and raises ValueError for anything else and for frequent loads with XD/XS classes; the size coefficient k is 1 up to 300 mm, 0.65 from 800 mm and linear between; kc stays in [0, 1] (rectangles) or is at least 0.5 (flanges); As_min times sigma_s is kc k |fct| Act, and prestressing steel never raises it; hc_eff is the least of its three bounds; the tables for bar diameter and spacing are reproduced at tabulated stresses and widths and stay in the table's range elsewhere; the mean strain difference is between 0.6 sigma_s/Es and sigma_s/Es and rises with sigma_s; phi_eq lies between the diameters; spacings and crack widths are non-negative; out-of-range arguments raise ValueError, wrong types TypeError, and zero divisors not covered by the checks ZeroDivisionError. Exceptions, proved: sr_max_theta accepts angles outside [0, pi/2] although its documentation says ValueError, and As_min_2 accepts d >= h.", "quantifier": "all numbers and strings, all interpolation routines meeting the contract", "why_tests_cant": "real-valued, strings", "anchors": ["structuralcodes/codes/ec2_2004/_section_7_3_crack_control.py"]}
{"id": "C39", "title": "MC2010 shear resistance uses the caller's safety factors and respects the strut limit", "statement": "v_rdc, v_rd_max and v_rd of each approximation level follow the Model Code equations for all inputs: v_rdc is positive (level 3: zero once the shear force reaches the crushing resistance), v_rd_max never exceeds 0.325 eta fck/gamma_c bw z, v_rd at levels 1 and 2 is the smaller of the stirrup resistance and v_rd_max of that level, at level 3 it is concrete plus stirrups when that is below v_rd_max and otherwise the level 2 value; unknown levels raise ValueError, missing stirrup data TypeError. Exceptions, proved: at levels 1 and 2 the caller's gamma_s has no effect (1.15 is used) and at level 3 fy is divided by both gamma_s and 1.15; the level 3 result can exceed the level 3 v_rd_max by more than 30 per cent; reversing the sign of the shear force changes v_rdc at level 3.", "quantifier": "all inputs with positive dimensions and strengths, all levels", "why_tests_cant": "real-valued, branch combinations", "anchors": ["structuralcodes/codes/mc2010/_concrete_shear.py"]}
{"id": "C40", "title": "MC2010 torsion, punching, interface and bond formulas respect their caps", "statement": "The torsion check accepts exactly the circle (T/T_rd,max)^2 + (V/V_rd,max)^2 <= 1, so neither action exceeds its resistance, and an unknown level ends in UnboundLocalError; punching: b_s is at most either span, k_psi is in (0, 0.6] and never rises with the rotation, the concrete part never exceeds the crushing limit (so stirrups never lower the resistance), better anchorage never lowers the limit, stirrup stress never exceeds its yield strength, unknown placements and levels raise ValueError; interface shear never exceeds beta v fcd with v <= 0.55 and never falls with normal stress or reinforcement; bond parameters follow Table 6.1-1 for words in any case, anything else raises ValueError, s_1 < s_2, K_tr <= 0.05, the slip at splitting is where the rising branch reaches the splitting stress, tau_yield is in equilibrium with the bar's yield force.", "quantifier": "all inputs with positive dimensions and strengths, all strings and levels", "why_tests_cant": "real-valued", "anchors": ["structuralcodes/codes/mc2010/_concrete_punching.py", "structuralcodes/codes/mc2010/_concrete_torsion.py", "structuralcodes/codes/mc2010/_concrete_interface_different_casting_times.py", "structuralcodes/codes/mc2010/_interface_concrete_steel_rebar.py"]}
{"id": "C41", "title": "EC2:2023 steel laws and serviceability", "statement": "fyd, eps_ud and fpd divide by the partial factor and never exceed the characteristic value. With k >= 1 (fpu >= fpy) and an ultimate strain beyond yield, sigma_s and sigma_p return E*eps up to the yield stress and then the straight line to k*fy (fpu) at the ultimate strain, without jump and never falling; out-of-range arguments raise ValueError. p_steel_stress_params returns the tabulated pair for each listed class of its kind of tendon in any case and refuses everything else. kh, kfl, k_1_r, the strain difference, the crack spacing and alpha_c stay in their ranges and meet their formulas; As_min_y grows with tension between its limits; wk_cal is the product of its reported factors and is never negative for bars in the tension zone; Ec_eff and delta_simpl follow their formulas, delta_simpl giving the plain sum below the cracking moment. Known exceptions, each proved: k in [0,1) is accepted and the stress falls, even below zero; an ultimate strain equal to the yield strain divides by zero; the documented class Y1560 is refused; bars in the compression zone give a negative crack width; delta_simpl divides by zero without load or reinforcement.", "quantifier": "all real arguments, all class and element strings", "why_tests_cant": "real-valued arguments with several branches; continuity and monotonicity quantify over pairs of strains", "anchors": ["structuralcodes/codes/ec2_2023/_section5_materials.py", "structuralcodes/codes/ec2_2023/_section9_sls.py"]}
{"id": "C42", "title": "Concrete material objects are consistent", "statement": "A concrete object keeps the magnitude of every user value (sign never matters), derives unset values from |fck| by the code's formulas, and is refused with ValueError exactly when fcm is not above fck, k or n is negative, the law is not for concrete, or (EC2:2023) the strength class is unknown or gamma_c is not positive. The design strength satisfies fcd*gamma = alpha*fck (EC2:2004, MC2010; a zero factor counts as unset) or fcd*gamma = eta*k*fck (EC2:2023, refused for fck < 12 or gamma < 1). Laws built by name: parabola-rectangle and bilinear have the plateau -fcd between the strain limits, Popovics peaks at -fcd, Sargin at -fcm, elastic has slope Ecm; nothing beyond the ultimate strain or in tension; the bilinear law does not exist for EC2:2023. An elastic material made from a concrete has the initial slope of its law.", "quantifier": "all code classes, strengths, optional arguments and strains", "why_tests_cant": "real-valued, many optional combinations", "anchors": ["structuralcodes/materials/concrete/_concreteEC2_2004.py", "structuralcodes/materials/concrete/_concreteMC2010.py", "structuralcodes/materials/concrete/_concreteEC2_2023.py"]}
{"id": "C43", "title": "Steel profile constants", "statement": "The plastic neutral axis of a profile always exists and lies inside it, and the areas above and below it differ by less than 1e-10 or by at most the area of a band of 1e-10 of the height; the plastic modulus is the first moment of the pieces above plus that of the pieces below; area, second moments, principal moments, elastic moduli and radii of gyration have their textbook values; after any sequence of reads the outline is unchanged and every constant still has the value of a fresh profile. (Two exceptions: the principal angle raises AttributeError unless a principal moment was read before, C43_theta_refuted; after a failed read on a flat outline the plastic modulus is 0, C43_failed_read_refuted.)", "quantifier": "all closed counter-clockwise outlines with positive area and extents, all splitters that cut at a height, all sequences of reads", "why_tests_cant": "history dependent", "anchors": ["structuralcodes/geometry/profiles/_base_profile.py", "structuralcodes/geometry/profiles/_common_functions.py"]}
{"id": "C44", "title": "Mesh input describes the section", "statement": "The planar graph handed to the mesher contains exactly the edges of the outer ring and of every hole, in order; and the marker of every convex hole lies strictly inside the hole, whichever way round the hole is drawn. (Deviation, proved: the marker of a concave hole can lie in the solid part, so the mesher keeps the hole and drops material.)", "quantifier": "all polygons with any number of holes; markers: all convex holes", "why_tests_cant": "unbounded numbers of vertices and holes, arbitrary shapes", "anchors": ["structuralcodes/sections/section_integrators/_fiber_integrator.py"]}
{"id": "C45", "title": "Cutting lines pass through the point and split by side", "statement": "create_line_point_angle gives two points on the line through the given point at the given angle, spanning the width of the bounding box unless the line is vertical; splitting a surface along a line sorts every piece exactly once into left and right by the side of its centroid. (A vertical line is cut off at the largest abscissa instead of the largest ordinate: C45_vertical_line_refuted.)", "quantifier": "all points, angles, boxes, lines and numbers of pieces", "why_tests_cant": "continuous families of lines", "anchors": ["structuralcodes/geometry/_geometry.py:create_line_point_angle", "structuralcodes/geometry/_geometry.py:SurfaceGeometry.split"]}
{"id": "C46", "title": "Rectangular and circular geometries have the requested shape", "statement": "RectangularGeometry has area width*height and extents origin +- half the sizes; CircularGeometry is a closed ring of 4k vertices, the requested number up to 2, all at distance diameter/2 from the origin, whose area is 2k r^2 sin(pi/2k), below the circle's by a relative error of at most (2 pi/4k)^2/6; both reject non-positive sizes and origins that are not two numbers, carry material and label and set the concrete flag for concrete materials.", "quantifier": "all sizes, origins, materials, flags, numbers of points", "why_tests_cant": "real-valued; unbounded vertex counts", "anchors": ["structuralcodes/geometry/_rectangular.py:RectangularGeometry", "structuralcodes/geometry/_circular.py:CircularGeometry"]}
{"id": "C47", "title": "Bending strength is a self-consistent ultimate state", "statement": "calculate_bending_strength returns forces that are the resultants of the section's own fibres under the returned strain profile, in the user's axes, whatever analyses ran before; the curvature is about the axis turned by theta, every corner and bar stays within the ultimate strains of its material (for materials that bear both governing strains) and in some point an ultimate strain is attained; the axial force balances the applied load under the conditions of C23, in which case a load within the limits is always solved; a load outside the axial limits is refused with ValueError.", "quantifier": "all fibre sections, material laws, angles, loads and histories of analyses (ultimate state: any integrator and state)", "why_tests_cant": "continuous loads and angles, any section, any history", "anchors": ["structuralcodes/sections/_generic.py:GenericSectionCalculator.calculate_bending_strength"]}
{"id": "C48", "title": "Moment-curvature curve", "statement": "calculate_moment_curvature returns one point per requested curvature, in order: the curvature is the requested one about the axis turned by theta, and the moments are those of the section's own fibres under the returned profile; for materials whose stress never decreases every point balances the axial load (unless a point of the search meets the load exactly), and bracketed loads are always solved. Without requested curvatures the curve has num_pre_yield points (plus num_post_yield when there is a plastic branch), of one sign and never decreasing in magnitude, from the first curvature through the yield curvature at point num_pre_yield to the ultimate curvature.", "quantifier": "all fibre sections, laws, angles, loads, lists of curvatures of any length, point counts and histories (automatic curvatures: any integrator)", "why_tests_cant": "unbounded lists, continuous parameters, any history", "anchors": ["structuralcodes/sections/_generic.py:GenericSectionCalculator.calculate_moment_curvature"]}
{"id": "C49", "title": "Biaxial interaction domain", "statement": "calculate_mm_interaction_domain returns num_theta points; point i carries the applied load and the moments and profile that a new calculator returns as bending strength for the angle 2 pi i/(num_theta - 1), the moments being those of the section's own fibres under that profile; the curve is closed.", "quantifier": "all fibre sections, laws, loads, numbers of angles and histories", "why_tests_cant": "unbounded numbers of angles, any history", "anchors": ["structuralcodes/sections/_generic.py:GenericSectionCalculator.calculate_mm_interaction_domain"]}
{"id": "C50", "title": "Elastic cracked section properties", "statement": "calculate_elastic_cracked_properties returns None for a section that is neither reinforced nor contains concrete. Otherwise, for reinforced concrete whose surfaces are all concrete, integrated by Marin's method, it finds a neutral axis perpendicular to the direction turned by theta at which the modulus-weighted first moment of the bars and of the concrete on the compressed side vanishes (to the code's tolerance, unless a point of the search meets it exactly), returns the classical section properties (area, weighted stiffnesses, centroid, mass, perimeter) of exactly that part of the concrete plus all bars, with the initial tangent moduli of the materials, and the new geometry; concrete is modelled with its initial tangent in compression and no tension. If the compressed part is not one polygon the call fails with AttributeError. Refuted expectations: the requested mesh size does not reach the fibre integrator, and in a composite section the non-concrete surfaces are cut away too, so the axis of the returned section is not its neutral axis.", "quantifier": "all reinforced concrete sections (any number of surfaces, holes and bars), material laws, angles and any shapely satisfying the splitting contract", "why_tests_cant": "continuous angle, any section, the position of the axis is found by an iterative search", "anchors": ["structuralcodes/sections/_rc_utils.py:calculate_elastic_cracked_properties"]}
{"id": "C51", "title": "Geometries with another material", "statement": "CompoundGeometry.from_geometry keeps outlines, bars and their order; with a new material every part has it, and surfaces are concrete exactly if it is a Concrete; without one every part gets its own unlimited elastic material with the tangent at zero strain and the density of its material (refused with ValueError if that tangent is not positive), while the materials of the original keep their laws; bars keep name and label, surfaces get new consecutive names. The elastic copy has the gross properties of the original. Refuted: the copy of a reinforced concrete section is not reinforced concrete, and surfaces lose their labels.", "quantifier": "all compound geometries, materials, counters and integrators", "why_tests_cant": "any number of parts, any laws, global counters", "anchors": ["structuralcodes/geometry/_geometry.py:CompoundGeometry.from_geometry", "structuralcodes/geometry/_geometry.py:SurfaceGeometry.from_geometry", "structuralcodes/geometry/_geometry.py:PointGeometry.from_geometry", "structuralcodes/materials/basic/_elastic.py:ElasticMaterial.from_material"]}
{"id": "C52", "title": "Catalogue of steel profiles", "statement": "In each of the fourteen profile classes every listed name (or, for IPE, IPN, UPN and UPE, its number) gives the outline drawn from its own row of the table, and an object whose dimensions are that row's; any other name raises ValueError. profiles() lists the table. The tables' in-place updates by get_polygon never change a later answer: after any history of calls every operation answers as after import. Every row describes a rollable profile (positive dimensions, flanges and fillets fit), names are unique, numbers in names are the height (IPE, IPN, UPN, UPE), names of angles show height, width and thickness, and names ending with a mass per metre agree with the area from the row to 3 percent.", "quantifier": "all classes, names, numbers, rows of the tables and histories of calls", "why_tests_cant": "any string or number, any history of calls mutating class attributes", "anchors": ["structuralcodes/geometry/profiles/_ipe.py:IPE", "structuralcodes/geometry/profiles/_upn.py:UPN", "structuralcodes/geometry/profiles/_l.py:L", "structuralcodes/geometry/profiles/_w.py:W"]}
{"id": "C53", "title": "Outlines of steel profiles", "statement": "For dimensions that fit (every row of the catalogue does) each constructor (I, tapered I, tapered U, parallel U, L) returns one closed polygon listed counter-clockwise, exactly as high and wide as asked for, with its centroid in the origin, symmetric about the horizontal axis unless it is an angle and about the vertical axis if it is an I, of positive area and second moments (so that all constants of C43 can be computed, also turned). With parallel flanges, area and second moments are those of the section with circular fillets up to the 16 chords of a quarter circle; with sloping flanges and for angles the area is that with sharp corners up to the rounding of the corners. The area of every catalogue profile named by its mass gives that mass to 4 percent.", "quantifier": "all dimensions that fit, all catalogue rows, any shapely whose union and corner rounding satisfy the stated contracts", "why_tests_cant": "continuous dimensions; composition of external geometric operations", "anchors": ["structuralcodes/geometry/profiles/_common_functions.py:_create_I_section", "structuralcodes/geometry/profiles/_common_functions.py:_create_taper_I_section", "structuralcodes/geometry/profiles/_common_functions.py:_create_taper_U_section", "structuralcodes/geometry/profiles/_common_functions.py:_create_parallel_U_section", "structuralcodes/geometry/profiles/_common_functions.py:_create_L_section"]}
{"id": "C54", "title": "Analyses with the exact integrator", "statement": "With the default (exact) integrator, after any history of analyses: the bending strength returned is the strain profile, bent about the requested axis, together with the exact resultants (area integrals of the stress over the surfaces plus the bars) of that profile, in the user's axes; under the conditions of C23 its axial force balances the applied load and a load within the limits is solved. Moment-curvature returns one point per requested (non-zero) curvature, in order, with the exact moments of its profile, and balances the load. The axial limits are the exact axial forces under the governing uniform strains; for materials whose stress never decreases they bound the axial force of every profile whose strains stay between these two. The interaction domains return, profile by profile, the exact resultants of the strain profile returned with them; the moment-moment domain has one point per direction, each the bending strength a new calculator gives there.", "quantifier": "all sections of closed outlines and bars (equally many per bar material), all laws following a stress-strain curve, angles, loads, histories", "why_tests_cant": "continuous sections, loads and angles; unbounded histories; iterative solvers", "anchors": ["structuralcodes/sections/_generic.py:GenericSectionCalculator.calculate_bending_strength", "structuralcodes/sections/_generic.py:GenericSectionCalculator.calculate_moment_curvature", "structuralcodes/sections/_generic.py:GenericSectionCalculator.calculate_limit_axial_load", "structuralcodes/sections/_generic.py:GenericSectionCalculator.calculate_nm_interaction_domain", "structuralcodes/sections/_generic.py:GenericSectionCalculator.calculate_mm_interaction_domain", "structuralcodes/sections/_generic.py:GenericSectionCalculator.calculate_nmm_interaction_domain", "structuralcodes/sections/section_integrators/_marin_integrator.py:MarinIntegrator"]}
{"id": "C55", "title": "Fibre and exact integrators agree up to the mesh", "statement": "Whenever the mesh given to the fibre integrator triangulates the surfaces (counter-clockwise triangles whose edges cancel or join to the outline), its forces for any strain plane differ from those of the exact (default) integrator by at most the strain gradient times the mesh size times the slope bound of the stress-strain curves times the area (times the extent of the section for the moments), as long as the strains stay in a range where the curves have no jump; bars count the same in both. So refining the mesh makes the fibre results converge to the exact ones, and two meshes of the same section, by whatever mesher, agree up to the sum of their sizes. The slope bounds hold for elastic, elastic-plastic and parabola-rectangle laws with the explicit constants E, max(E, Eh) and 2 fc / eps_0. For triangulated sections of materials whose stress never decreases, the axial force grows with the axial strain whatever the direction of bending, and lies between the forces of the smallest and largest strain applied uniformly.", "quantifier": "all sections with closed outlines and holes, all triangulations of them, laws, strain planes and mesh sizes", "why_tests_cant": "continuous strain planes, arbitrary triangulations, convergence as the mesh is refined", "anchors": ["structuralcodes/sections/section_integrators/_fiber_integrator.py:FiberIntegrator.integrate_strain_response_on_geometry", "structuralcodes/sections/section_integrators/_fiber_integrator.py:FiberIntegrator.triangulate", "structuralcodes/sections/section_integrators/_marin_integrator.py:MarinIntegrator.integrate_strain_response_on_geometry"]}
{"id": "C56", "title": "Turning the section turns the results", "statement": "If a section is rotated about the origin by an angle phi, its analyses give the rotated results of the original section: calculate_bending_strength and calculate_moment_curvature at theta + phi return the same axial force and axial strain with curvatures and moments rotated by phi (axial load within the limits both sections report); integrating the rotated strain profile gives the rotated forces and stiffness, calculate_nm_interaction_domain at theta + phi the rotated strains and forces with the same field numbers, and calculate_strain_profile for the rotated loads the rotated profile, including when the original raises. Earlier analyses on either section do not matter. With the Marin integrator this needs nothing but materials whose answer to a uniform strain is a constant (true of the library's laws); with the fibre integrator the triangulation has to turn with the surface, and the strain profile is covered at the default mesh size. The limits n_min, n_max themselves do depend on the orientation.", "quantifier": "all sections (surfaces with holes, bars), materials, angles phi and theta, axial loads, strain profiles, loads, curvature lists, field settings, histories of analyses on both sections", "why_tests_cant": "tests rotate a few sections by a few angles and compare within a tolerance; the equality holds for every section, angle, load and history, and for the errors raised", "anchors": ["structuralcodes/sections/_generic.py:GenericSectionCalculator.calculate_bending_strength", "structuralcodes/sections/_generic.py:GenericSectionCalculator.calculate_moment_curvature", "structuralcodes/sections/_generic.py:GenericSectionCalculator.calculate_nm_interaction_domain", "structuralcodes/sections/_generic.py:GenericSectionCalculator.calculate_strain_profile", "structuralcodes/geometry/_geometry.py:CompoundGeometry.rotate"]}
{"id": "C57", "title": "Every material law reaches the exact integrator", "statement": "Whatever law a surface has (elastic, elastic-plastic, bilinear, parabola-rectangle of any exponent, Sargin, Popovics, user-defined, or a parallel combination of these), the pieces the law hands to the exact integrator describe one stress-strain curve together with its slope: the law's own curve (its get_stress away from the tolerance at the ultimate strains) when the law is made of polynomials, and the polygon through get_stress at the tenths of the ultimate strain otherwise; for a parallel combination the weighted sum of the components' curves. With any such laws the exact integrator's forces are the area integrals of that curve over the surfaces plus the bars, and its stiffness the integrals of the slope. The polygon differs from a smooth law by at most a bound on the change of slope times (eps_u/10)^2/8.", "quantifier": "all constructor arguments accepted by the laws, all strain planes, all sections of closed outlines with holes, all numbers and weights of parallel components", "why_tests_cant": "continuous strains, arbitrary user data and weights; piecewise hand-over with tolerances at every break", "anchors": ["structuralcodes/materials/constitutive_laws/_bilinearcompression.py:BilinearCompression.__marin__", "structuralcodes/materials/constitutive_laws/_userdefined.py:UserDefined.__marin__", "structuralcodes/materials/constitutive_laws/_parallel.py:Parallel.__marin__", "structuralcodes/materials/constitutive_laws/_parabolarectangle.py:ParabolaRectangle.__marin__", "structuralcodes/core/base.py:ConstitutiveLaw.preprocess_strains_with_limits", "structuralcodes/core/base.py:ConstitutiveLaw.__marin__", "structuralcodes/sections/section_integrators/_marin_integrator.py:MarinIntegrator"]}
{"id": "C58", "title": "Moving, mirroring or redrawing the section", "statement": "Every result depends on the section, not on where it is drawn or in which order its outline is listed. Two sections whose surfaces and bars correspond under a translation by (a, b), a mirroring of y, or both, with the vertices of every outline listed from any starting point and in either sense and the holes in any order, give corresponding results in every analysis after any histories: the strain profile with the same strain in every point gives the same axial force and the moments of the same stresses about the new origin (My + b N, +-Mz - a N), the stiffness answers accordingly, the axial limits are equal, calculate_bending_strength at the corresponding angle gives the moved strain profile and forces, calculate_nm_interaction_domain, calculate_nmm_interaction_domain and calculate_mm_interaction_domain the moved strains and forces with the same field numbers; with the origin kept also calculate_moment_curvature and calculate_strain_profile. In particular a section that is its own mirror image (for the Marin integrator also with surfaces and bars in mirrored pairs, under the conditions of C61) and bent about the horizontal axis has no moment and no curvature about the axis of symmetry. With the Marin integrator calculate_strain_profile of such a section without moment about the axis of symmetry finds no curvature about it.", "quantifier": "all pairs of corresponding sections (closed outlines enclosing an area, holes, bars), translations, laws, angles, loads, strain profiles, field settings, histories of analyses on both sections; for the fibre integrator meshes that move with the surfaces", "why_tests_cant": "tests compare a few drawings of a few sections within a tolerance; the equality, errors included, holds for every section, translation, order of vertices and load", "anchors": ["structuralcodes/sections/_generic.py:GenericSectionCalculator.calculate_bending_strength", "structuralcodes/sections/_generic.py:GenericSectionCalculator.calculate_moment_curvature", "structuralcodes/sections/_generic.py:GenericSectionCalculator.calculate_nm_interaction_domain", "structuralcodes/sections/_generic.py:GenericSectionCalculator.calculate_nmm_interaction_domain", "structuralcodes/sections/_generic.py:GenericSectionCalculator.calculate_mm_interaction_domain", "structuralcodes/sections/_generic.py:GenericSectionCalculator.calculate_strain_profile", "structuralcodes/sections/_generic.py:GenericSectionCalculator.calculate_limit_axial_load", "structuralcodes/sections/section_integrators/_marin_integrator.py:MarinIntegrator", "structuralcodes/sections/section_integrators/_fiber_integrator.py:FiberIntegrator"]}
{"id": "C59", "title": "A section assembled from pieces", "statement": "Cutting a surface of a section into pieces of the same material, or joining pieces into one surface, changes nothing: with the Marin integrator every analysis of the assembled section - strain profile, stiffness, axial limits, bending strength, moment-curvature relation, the three interaction domains, the strain profile for given loads - returns exactly the result of the original section, or raises the same error, whatever analyses were made before. Pieces may have holes, may share edges that are divided differently on both sides, and must only bound together the region that the surface bounds, with vertices between those of the surface.", "quantifier": "all sections of closed outlines with holes and bars, all ways of cutting them, laws, ultimate strains of both signs, loads, angles, field settings and calculator states", "why_tests_cant": "tests compare a few subdivisions of a few sections within a tolerance; the equality, errors included, holds for every subdivision and every analysis", "anchors": ["structuralcodes/sections/section_integrators/_marin_integrator.py:MarinIntegrator", "structuralcodes/sections/_generic.py:GenericSectionCalculator.get_balanced_failure_strain", "structuralcodes/sections/_generic.py:GenericSectionCalculator.calculate_bending_strength", "structuralcodes/sections/_generic.py:GenericSectionCalculator.calculate_nm_interaction_domain", "structuralcodes/sections/_generic.py:GenericSectionCalculator.calculate_strain_profile", "structuralcodes/geometry/_geometry.py:CompoundGeometry"]}
{"id": "C60", "title": "Accuracy of results with curved material laws", "statement": "With the exact (Marin) integrator, a material law that is not made of polynomials (Sargin, a parabola with exponent other than 2, Popovics) takes part as a polygon through the tenths of its ultimate strain; the results are as accurate as that polygon, in numbers. If the curve handed over differs by at most d from the material's true curve at all strains the section reaches, then N differs from the integral of the true curve's stresses by at most d times the area, My and Mz by at most that times the height and the width; this holds for the strain profile, for the forces of calculate_bending_strength, every point of calculate_nm_interaction_domain and calculate_nmm_interaction_domain and every point of the moment-curvature relation. For Sargin's law d is fc (k-1)^2 (eu/e1)^2 / (400 m^3) with m the smaller of 1 and 1 + (k-2) eu/e1; for the parabola n fc (eu/e2) / 20; for Popovics n max(1/(n-1), 1/4) fc (eu/ec) / 20. The fibre integrator, which evaluates the law itself, agrees with the exact one within d plus the mesh error.", "quantifier": "all arguments of the laws for which the curve stays in compression up to the ultimate strain, all sections of closed outlines with holes that can be divided into triangles, all strain planes, loads, angles, histories", "why_tests_cant": "tests compare a few sections with a few parameters to fixed numbers; the error bound holds for all of them", "anchors": ["structuralcodes/core/base.py:ConstitutiveLaw.__marin__", "structuralcodes/materials/constitutive_laws/_sargin.py:Sargin", "structuralcodes/materials/constitutive_laws/_popovics.py:Popovics", "structuralcodes/materials/constitutive_laws/_parabolarectangle.py:ParabolaRectangle.__marin__", "structuralcodes/sections/section_integrators/_marin_integrator.py:MarinIntegrator", "structuralcodes/sections/section_integrators/_fiber_integrator.py:FiberIntegrator", "structuralcodes/sections/_generic.py:GenericSectionCalculator"]}
{"id": "C61", "title": "The order of surfaces and bars does not matter", "statement": "Two sections with the same surfaces and bars, listed in a different order, give the same results: after the same history of analyses, every public analysis of the section calculator (forces and stiffness of a strain profile, axial limits, bending strength, moment-curvature, N-M, M-M and N-M-M domains, strain profile for given loads, equilibrium at fixed curvature) returns the same reply or raises the same exception, with the fibre integrator and with the exact one, and whatever integration data the earlier analyses have left. Reordering the section never changes whether a balanced failure is found nor its strain profile, which is the only profile that overstrains nothing and reaches an ultimate strain on both sides. Two things must hold: in each direction the balanced failure reaches the ultimate strains at one height in compression and one in tension (true of a section of one material, and of one concrete reinforced with one steel); and, with the exact integrator, the surface laws write back the same strain when asked for a uniform one (a uniform strain within a millionth of a law's ultimate strain is snapped in place and then handed to the next surface: the order matters there).", "quantifier": "all materials laws, meshers, sections (surfaces with holes, bars of several materials) and reorderings of them, histories of analyses, arguments", "why_tests_cant": "tests build each section in one order; the number of orders, groups and histories is unbounded", "anchors": ["structuralcodes/sections/_generic.py:GenericSectionCalculator", "structuralcodes/sections/section_integrators/_fiber_integrator.py:FiberIntegrator", "structuralcodes/sections/section_integrators/_marin_integrator.py:MarinIntegrator", "structuralcodes/geometry/_geometry.py:CompoundGeometry"]}
{"id": "C62", "title": "Forces add up over the parts and scale with the drawing", "statement": "Two laws of mechanics that the integrators keep exactly, for integrate_strain_profile (forces and stiffness) with both integrators. Parts: the forces of a section that has the surfaces and bars of two sections are the sums of their forces under the same strain profile (same axes), and the stiffness matrices add up entry by entry. Scale: a section drawn l times as large (bars with l^2 times the area), under the profile with the curvatures divided by l, has l^2 times the axial force and l^3 times the moments, and the stiffness entries grow with l^2, l^3 and l^4 (so results do not depend on whether a section is drawn in metres or in millimetres). With the fibre integrator this holds for every mesh size (for the scale, if the mesher draws the triangles to scale); with the exact one for laws that follow a curve under the profile and an equal number of bars of each material (other sections with bars of several materials raise ValueError, C21).", "quantifier": "all batched laws, sections of closed outlines with holes and bars, strain profiles, mesh sizes, scales l > 0", "why_tests_cant": "tests check forces of single sections; additivity and scaling relate all pairs of sections", "anchors": ["structuralcodes/sections/section_integrators/_fiber_integrator.py:FiberIntegrator", "structuralcodes/sections/section_integrators/_marin_integrator.py:MarinIntegrator", "structuralcodes/geometry/_geometry.py:CompoundGeometry.__add__"]}
{"id": "C63", "title": "Prestressed bars: force and stiffness of a tendon", "statement": "A bar whose material wraps a law with an initial strain acts in a section as a prestressed tendon. For integrate_strain_profile (forces and stiffness) with both integrators, adding a bar to a section adds exactly the bar's force and stiffness (law's stress and tangent at the section's strain at the bar, times its area, with lever arms z and -y). With an initial strain and strain compatibility (bonded), that force is the wrapped law's stress at section strain plus initial strain; without compatibility (unbonded) the force is the wrapped law's stress at the initial strain, whatever the strain profile, and the stiffness is a millionth of the wrapped law's initial tangent. The same initial strain in all materials is the same, with the fibre integrator, as a shift of the axial strain of the profile, for both results and any cached data. Wrapping keeps array evaluation equal to scalar evaluation, and a wrapped elastic law can also be used in surfaces with the exact integrator. (Wrapped laws with ranges, and unbonded ones, are wrong in surfaces of the exact integrator: see the refuted claims of C12.)", "quantifier": "all batched laws, sections, bars, strain profiles, initial strains, mesh sizes", "why_tests_cant": "tests check single tendons; the claim is for every section, profile and law", "anchors": ["structuralcodes/materials/constitutive_laws/_initial_strain.py:InitialStrain", "structuralcodes/sections/section_integrators/_fiber_integrator.py:FiberIntegrator", "structuralcodes/sections/section_integrators/_marin_integrator.py:MarinIntegrator"]}
{"id": "C64", "title": "Forces and strain profiles determine each other", "statement": "If, over the strains in use, every material's stress rises by at least m and at most L per unit of strain, then for any two strain profiles the difference of the forces returned by integrate_strain_profile, paired with the difference of the profiles (N with the axial strain, My and Mz with the curvatures), lies between the integrals of m and of L times the squared difference of the strains: exactly over the section for the exact integrator, over the fibres for the fibre integrator. Hence in a section that resists every deformation (a surface with area, or three bars not in a line) two different profiles never have the same forces (for the fibre integrator it is enough that the curves always rise); at fixed curvature the axial force rises with the axial strain, with a slope between the sums of m and of L times area; and two axial strains that both balance the same N within 0.01 are no further apart than 0.02 divided by that slope. Elastic and hardening steel laws rise in this way up to their ultimate strains.", "quantifier": "all sections, meshes, pairs of strain profiles, batched laws whose curves rise", "why_tests_cant": "tests compare the forces of single profiles; uniqueness is a claim about all pairs", "anchors": ["structuralcodes/sections/section_integrators/_fiber_integrator.py:FiberIntegrator", "structuralcodes/sections/section_integrators/_marin_integrator.py:MarinIntegrator", "structuralcodes/sections/_generic.py:GenericSectionCalculator"]}
{"id": "C65", "title": "Materials equal in tension and compression", "statement": "If every material has the opposite stress and the same tangent at opposite strains (all elastic materials, and elastic-plastic ones with positive yield stress and non-negative hardening, with or without an ultimate strain, whose ultimate strain is not below yielding and wider than the tolerance used to recognise it), then for both integrators, after any earlier calls (for the fibre integrator calls that use the calculator's mesh size, and for strain profiles the default mesh size), integrate_strain_profile of the opposite strain profile gives exactly the opposite forces (or the same exception), the tangent stiffness is the same, calculate_strain_profile under the opposite forces returns the opposite strain profile (or the same exception), and when all materials have one ultimate strain the axial capacity in compression is minus the one in tension. With the Marin integrator, under the conditions on laws and outlines of C61: for a section that half a turn about the origin leaves as it is (surfaces and bars possibly in opposite pairs), reversing the curvatures reverses the moments and leaves the axial force, for any materials; with materials of this kind pure bending gives no axial force, and calculate_strain_profile under moments without axial force finds no axial strain at the origin.", "quantifier": "all sections, bars, holes, strain profiles, loads, earlier calls, materials of this kind", "why_tests_cant": "tests use a few strain values; the symmetry must hold for every strain, including those snapped to a limit, and through the whole Newton iteration", "anchors": ["structuralcodes/materials/constitutive_laws/_elasticplastic.py:ElasticPlastic", "structuralcodes/materials/constitutive_laws/_elastic.py:Elastic", "structuralcodes/sections/section_integrators/_fiber_integrator.py:FiberIntegrator", "structuralcodes/sections/section_integrators/_marin_integrator.py:MarinIntegrator", "structuralcodes/sections/_generic.py:GenericSectionCalculator"]}
{"id": "C66", "title": "Comparing and printing section properties", "statement": "SectionProperties.isclose answers true exactly when each of the 29 quantities differs from the other object's by at most atol + rtol times the other object's value. With non-negative tolerances an object is close to itself; larger tolerances accept more; zero tolerances mean equality; tolerances add up along a chain of comparisons; with rtol below 1 the reversed comparison holds with both tolerances divided by 1 - rtol (with the same tolerances it may fail). The default absolute tolerance is blind to units: properties that are all at most 5e-9 are close to anything as small. Comparing with an object of another class gives NotImplemented, which a condition takes for true. The printed report determines every quantity as printed: two reports are the same text exactly when every quantity is printed alike (if numbers are printed on one line); every quantity has a line of its own under its label, but the principal angles of area and stiffness carry one label and Sz, a first moment, is printed as a second moment. An object made without arguments is all zeros and is close, as the reference, to exactly the objects whose quantities are all at most atol.", "quantifier": "all pairs and chains of section properties, all tolerances, all one-line number formats", "why_tests_cant": "a test compares a few objects; completeness (no quantity forgotten) and the laws of the tolerance are claims about all of them", "anchors": ["structuralcodes/core/_section_results.py:SectionProperties.isclose", "structuralcodes/core/_section_results.py:SectionProperties.__format__"]}
{"id": "C67", "title": "Section objects: identity, name and stored gross properties", "statement": "Of two sections of one class the later one has the larger id, whatever other sections are created in between; if only one class is used the ids are 0, 1, 2, ...; automatic names differ within a class and given names are kept, but an unnamed GenericSection is always called GenericSection, and ids are not shared with other classes, so sections of different classes can have the same id. gross_properties gives, however often it is read, the answer of one calculation on the geometry; after a success nothing is calculated again, an exception is raised anew each time; replacing the geometry before the first reading is respected, after it the old properties stay.", "quantifier": "all sequences of constructions over any class hierarchy, all numbers of readings", "why_tests_cant": "the counters live in class dictionaries and the stored result in the object: what matters is the whole history", "anchors": ["structuralcodes/core/base.py:Section", "structuralcodes/sections/_generic.py:GenericSection.__init__", "structuralcodes/sections/_generic.py:GenericSection.gross_properties"]}
