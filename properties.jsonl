{"id": "C01", "title": "Basis blades enumerate the exterior basis", "statement": "For an n-dimensional algebra, ga.blades lists, grade by grade, exactly one basis blade for every strictly increasing tuple of basis indices: C(n,k) blades in grade k, 2**n in all, no tuple missing or repeated, each in its own grade and in lexicographic order.", "quantifier": "every dimension n >= 0 and every grade k", "why_tests_cant": "tests look at n = 2..5; the claim is about every n", "anchors": ["galgebra/ga.py:Ga.indexes", "galgebra/ga.py:Ga.blades", "galgebra/ga.py:GradedTuple"]}
{"id": "C02", "title": "Blade lookup is a bijection", "statement": "indexes_to_blades_dict and its inverse are mutually inverse: looking an index tuple up and back returns that tuple, and looking a basis blade up and back returns that blade; blades_to_grades_dict gives the length of the tuple.", "quantifier": "every dimension and every basis of pairwise distinct symbols", "why_tests_cant": "must hold for every key, including the ones no test looks up; it fails for repeated basis names, which a finite suite need not contain", "anchors": ["galgebra/ga.py:OrderedBiMap", "galgebra/ga.py:Ga.indexes_to_blades_dict", "galgebra/ga.py:Ga.blades_to_grades_dict"]}
{"id": "C03", "title": "Index reordering carries the right sign", "statement": "Reducing a list of basis indices for the outer product returns zero exactly when an index is repeated, and otherwise the sorted list together with +1 or -1 according to the parity of the number of inversions.", "quantifier": "every list of indices of every length", "why_tests_cant": "n! orders per length; Python negative-index wraparound inside the loop is only exercised by some of them", "anchors": ["galgebra/ga.py:Ga.blade_reduce"]}
{"id": "C04", "title": "Orthogonal geometric product of basis blades", "statement": "In an algebra with a diagonal metric the product of two basis blades e_I*e_J is (-1)**inv(I,J) times the product of g_ii over the common indices times the blade of the symmetric difference.", "quantifier": "every dimension, every diagonal metric (degenerate ones included), every pair of basis blades", "why_tests_cant": "4**n pairs per n and infinitely many metrics", "anchors": ["galgebra/ga.py:_GeometricProductFunction"]}
{"id": "C05", "title": "Reduction of basis-vector words terminates and preserves the value", "statement": "Reducing an arbitrary product of basis vectors e_i1*...*e_ir by the metric always finishes and returns a linear combination of strictly increasing basis products which equals the original product in every associative algebra satisfying e_i*e_j + e_j*e_i = 2*g_ij.", "quantifier": "every word of every length, every dimension and every metric", "why_tests_cant": "non-termination and wrong reduction on long words cannot be excluded by sampling words", "anchors": ["galgebra/ga.py:Ga.reduce_basis", "galgebra/ga.py:Ga.reduce_basis_loop"]}
{"id": "C06", "title": "The geometric product is the Clifford product of the metric", "statement": "For any metric, orthogonal or not, A*B computed by the library is the bilinear, associative, unital product determined by e_i*e_j + e_j*e_i = 2*g_ij (with blades the antisymmetrised products); there is exactly one such product.", "quantifier": "every dimension, every symmetric metric over every commutative ring of scalars with 1/2, every pair of multivectors in any representation", "why_tests_cant": "tests check particular products in particular metrics", "anchors": ["galgebra/ga.py:Ga.mul", "galgebra/ga.py:_GeometricProductFunction", "galgebra/ga.py:_BaseGeometricProductFunction", "galgebra/mv.py:Mv.__mul__"]}
{"id": "C07", "title": "Multivectors form an algebra", "statement": "(A*B)*C == A*(B*C), A*(B+C) == A*B + A*C, (A+B)*C == A*C + B*C, 1*A == A == A*1, and scalars commute with everything and may be moved in and out of products.", "quantifier": "every metric, every dimension, every triple of multivectors", "why_tests_cant": "universally quantified algebraic laws", "anchors": ["galgebra/mv.py:Mv.__mul__", "galgebra/mv.py:Mv.__add__", "galgebra/mv.py:Mv._arithmetic_op", "galgebra/ga.py:update_and_substitute"]}
{"id": "C08", "title": "Products of vectors", "statement": "For vectors a, b and any multivector B: a*b == (a|b) + (a^b), a*b + b*a == 2*(a|b), a|b is the metric bilinear form, a*a is the scalar g(a,a), and a*B == (a<B) + (a^B).", "quantifier": "every metric and all vectors and multivectors", "why_tests_cant": "identities over all coefficient values", "anchors": ["galgebra/ga.py:Ga.mul", "galgebra/ga.py:Ga.wedge", "galgebra/ga.py:Ga.hestenes_dot", "galgebra/ga.py:Ga.left_contract"]}
{"id": "C09", "title": "Base and blade representations are interchangeable", "statement": "A.base_rep().blade_rep() and A.blade_rep().base_rep() give back the same multivector, conversion never changes the value, and sums, products and comparisons do not depend on which representation the operands are in.", "quantifier": "every non-orthogonal metric, every multivector", "why_tests_cant": "the conversion tables are built by recursion over all 2**n blades", "anchors": ["galgebra/ga.py:Ga.blade_expansion_dict", "galgebra/ga.py:Ga.base_expansion_dict", "galgebra/ga.py:Ga.base_to_blade_rep", "galgebra/ga.py:Ga.blade_to_base_rep", "galgebra/mv.py:Mv.base_rep", "galgebra/mv.py:Mv.blade_rep"]}
{"id": "C10", "title": "Outer product", "statement": "A^B is independent of the metric, associative, bilinear, graded-commutative, zero for linearly dependent vectors, and equals the sum over r,s of the grade r+s part of <A>_r*<B>_s.", "quantifier": "every dimension and metric, all multivectors", "why_tests_cant": "universally quantified law over an infinite family of algebras", "anchors": ["galgebra/ga.py:_WedgeProductFunction", "galgebra/ga.py:Ga.wedge", "galgebra/mv.py:Mv.__xor__"]}
{"id": "C11", "title": "Inner products are grade selections of the geometric product", "statement": "A<B, A>B, A|B and the scalar product are the sums over r,s of the grade s-r, r-s, |r-s| (zero when r or s is 0) and 0 part of <A>_r*<B>_s, by both the orthogonal bubble-reduction code path and the general one.", "quantifier": "every metric, all multivectors, both code paths", "why_tests_cant": "the orthogonal path is a hand written loop with early exits whose reachable states depend on both index lists", "anchors": ["galgebra/ga.py:_SingleGradeProductFunction", "galgebra/ga.py:_HestenesDotProductFunction", "galgebra/ga.py:_LeftContractFunction", "galgebra/ga.py:_RightContractFunction", "galgebra/ga.py:_ScalarProductFunction"]}
{"id": "C12", "title": "Lazily filled product tables are transparent", "statement": "Whatever products were computed before and in whatever order, a table lookup returns the value that computing the entry directly would return, and each entry is computed at most once.", "quantifier": "every history of lookups", "why_tests_cant": "depends on the history of calls, of which there are infinitely many", "anchors": ["galgebra/ga.py:lazy_dict", "galgebra/ga.py:BladeProductFunction", "galgebra/_utils/cached_property.py:cached_property"]}
{"id": "C13", "title": "Reversion is an anti-automorphism", "statement": "A.rev().rev() == A, (A*B).rev() == B.rev()*A.rev(), (A+B).rev() == A.rev()+B.rev(), and on a grade-k multivector reversion multiplies by (-1)**(k*(k-1)/2).", "quantifier": "every metric, all multivectors", "why_tests_cant": "universal law", "anchors": ["galgebra/ga.py:Ga.reverse", "galgebra/mv.py:Mv.rev"]}
{"id": "C14", "title": "Grade involution, Clifford conjugation and parity", "statement": "g_invol is an automorphism and ccon an anti-automorphism, both involutions; A == A.even() + A.odd(); even() and odd() are the +1/-1 eigenparts of g_invol, and the even multivectors are closed under the product.", "quantifier": "every metric, all multivectors", "why_tests_cant": "universal law", "anchors": ["galgebra/ga.py:Ga.even_odd", "galgebra/mv.py:Mv.g_invol", "galgebra/mv.py:Mv.ccon", "galgebra/mv.py:Mv.even", "galgebra/mv.py:Mv.odd"]}
{"id": "C15", "title": "Grade decomposition is complete and orthogonal", "statement": "The grade parts of A sum to A, A.grade(r).grade(s) is A.grade(r) when r == s and 0 otherwise, A.scalar() is the coefficient of 1, and the set of grades reported for A lists exactly the grades with a nonzero part.", "quantifier": "all multivectors in all algebras", "why_tests_cant": "universal law", "anchors": ["galgebra/ga.py:Ga.grade_decomposition", "galgebra/ga.py:Ga.get_grade", "galgebra/ga.py:Ga.scalar_part", "galgebra/ga.py:Ga.split_multivector", "galgebra/ga.py:Ga.grades", "galgebra/mv.py:Mv.grade", "galgebra/mv.py:Mv.scalar"]}
{"id": "C16", "title": "Coefficient extraction loses nothing", "statement": "Expanding a multivector into coefficients and bases yields pairwise distinct bases whose combination is the multivector; components(), blade_coefs() and get_coefs() return the coefficients of the named blades, and invalid requests raise.", "quantifier": "all multivectors and all lists of blades", "why_tests_cant": "the number of terms and their order are unbounded", "anchors": ["galgebra/metric.py:linear_expand", "galgebra/mv.py:Mv.components", "galgebra/mv.py:Mv.get_coefs", "galgebra/mv.py:Mv.blade_coefs"]}
{"id": "C17", "title": "The unit pseudoscalar is normalised", "statement": "When the metric is non-degenerate, ga.i squares to +1 or -1 according to the sign of e*e, ga.i*ga.i_inv == 1 == ga.i_inv*ga.i, and e*e is (-1)**(n(n-1)/2) * det(g).", "quantifier": "every dimension and every non-degenerate metric", "why_tests_cant": "universally quantified over metrics", "anchors": ["galgebra/ga.py:Ga.__init__", "galgebra/ga.py:Ga.e_sq", "galgebra/ga.py:Ga.i", "galgebra/ga.py:Ga.i_inv"]}
{"id": "C18", "title": "Duality is invertible in every dual mode", "statement": "dual() multiplies by plus or minus I or its inverse on the documented side for each of the eight modes; undual() inverts dual(); dual maps grade r to grade n-r; an unknown mode is rejected and leaves the mode unchanged.", "quantifier": "all multivectors, all non-degenerate metrics, all mode strings", "why_tests_cant": "mode strings are arbitrary and the mode is global state", "anchors": ["galgebra/mv.py:Mv.dual", "galgebra/mv.py:Mv.undual", "galgebra/ga.py:Ga.dual_mode"]}
{"id": "C19", "title": "Inverses are inverses", "statement": "Whenever A.inv() returns a value X, A*X == 1 and X*A == 1; otherwise it raises.", "quantifier": "every multivector in every algebra", "why_tests_cant": "universal over multivectors", "anchors": ["galgebra/mv.py:Mv.inv", "galgebra/mv.py:Mv.__truediv__"]}
{"id": "C20", "title": "Shirokov and Hitzer inverses", "statement": "When shirokov_inverse() (any dimension) or hitzer_inverse() (dimension at most 5) divides by a non-zero scalar, the result is a two-sided inverse.", "quantifier": "every metric, every multivector", "why_tests_cant": "universal over multivectors; the formulas are dimension specific", "anchors": ["galgebra/mv.py:Mv.shirokov_inverse", "galgebra/mv.py:Mv.hitzer_inverse"]}
{"id": "C21", "title": "Exponential", "statement": "If A*A is a scalar then A.exp() is cos/cosh(|A|) + sin/sinh(|A|)*A/|A| (or 1 + A when A*A == 0), and A.exp()*(-A).exp() == 1; it raises when A*A is not a scalar.", "quantifier": "all multivectors whose square is a scalar", "why_tests_cant": "universal over coefficients", "anchors": ["galgebra/mv.py:Mv.exp"]}
{"id": "C22", "title": "Quadratic form and norms", "statement": "A.qform() is the scalar part of A.rev()*A, which is a quadratic form: it is invariant under sign and under reversion, scales by the square of scalars and is multiplicative on products of versors; norm2 is its absolute value.", "quantifier": "all multivectors, all metrics", "why_tests_cant": "universal law", "anchors": ["galgebra/mv.py:Mv.qform", "galgebra/mv.py:Mv.norm2", "galgebra/mv.py:Mv.norm"]}
{"id": "C23", "title": "Versor and blade tests are sound", "statement": "is_versor() returns True only if A*A.rev() is a scalar and A maps vectors to vectors under its twisted conjugation; products of invertible vectors pass it; is_blade() accepts only homogeneous multivectors with scalar square that map vectors to vectors.", "quantifier": "all multivectors, all metrics", "why_tests_cant": "universal over multivectors", "anchors": ["galgebra/mv.py:Mv.is_blade", "galgebra/mv.py:Mv.is_versor"]}
{"id": "C24", "title": "Projection and reflection in a blade", "statement": "project_in_blade is linear, idempotent and grade preserving, reflect_in_blade is an involution preserving the quadratic form, both for every invertible blade; rotate_multivector preserves products.", "quantifier": "all invertible blades and all multivectors", "why_tests_cant": "universal law", "anchors": ["galgebra/mv.py:Mv.project_in_blade", "galgebra/mv.py:Mv.reflect_in_blade", "galgebra/mv.py:Mv.rotate_multivector"]}
{"id": "C25", "title": "Reciprocal basis and inverse metric", "statement": "For every non-degenerate metric the reciprocal basis vectors satisfy e^i | e_j == delta_ij, are vectors, and g_inv is the matrix inverse of g.", "quantifier": "every dimension and every non-degenerate metric", "why_tests_cant": "universal over metrics", "anchors": ["galgebra/ga.py:Ga.r_basis", "galgebra/ga.py:Ga.r_basis_mv", "galgebra/ga.py:Ga.g_inv", "galgebra/ga.py:Ga.mvr"]}
{"id": "C26", "title": "Reciprocal frame of arbitrary vectors", "statement": "ReciprocalFrame(v_1,...,v_k) returns vectors v^i with v^i | v_j == delta_ij (after division by the returned E**2 in non-normalised mode) whenever (v_1^...^v_k)**2 is non-zero.", "quantifier": "every list of linearly independent vectors", "why_tests_cant": "universal over frames", "anchors": ["galgebra/ga.py:Ga.ReciprocalFrame"]}
{"id": "C27", "title": "Linear transformations are linear and round-trip through matrices", "statement": "L(a*x+b*y) == a*L(x)+b*L(y); the transformation built from a matrix returns that matrix from matrix(); Matrix_to_dictionary and Dictionary_to_Matrix are mutually inverse.", "quantifier": "all matrices, all dimensions, all vectors", "why_tests_cant": "universal over matrices", "anchors": ["galgebra/lt.py:Lt.__init__", "galgebra/lt.py:Lt.matrix", "galgebra/lt.py:Matrix_to_dictionary", "galgebra/lt.py:Dictionary_to_Matrix"]}
{"id": "C28", "title": "Algebra of linear transformations", "statement": "(L1+L2)(x) == L1(x)+L2(x), (L1-L2)(x) == L1(x)-L2(x), (L1*L2)(x) == L1(L2(x)), (c*L)(x) == c*L(x), and the matrix of a composition is the product of the matrices.", "quantifier": "all transformations and vectors", "why_tests_cant": "universal over transformations", "anchors": ["galgebra/lt.py:Lt.__add__", "galgebra/lt.py:Lt.__sub__", "galgebra/lt.py:Lt.__mul__", "galgebra/lt.py:Lt.__rmul__"]}
{"id": "C29", "title": "Outermorphism and determinant", "statement": "L(1) == 1, L(A^B) == L(A)^L(B), L(E) == det(L)*E; det of a composition is the product of the determinants and agrees with the matrix determinant.", "quantifier": "all transformations, all multivectors, all non-degenerate metrics", "why_tests_cant": "universal over transformations", "anchors": ["galgebra/lt.py:Lt.__call__", "galgebra/lt.py:Lt.mv_dict", "galgebra/lt.py:Lt.det"]}
{"id": "C30", "title": "Adjoint", "statement": "a | L(b) == b | L.adj()(a), and L.adj().adj() == L.", "quantifier": "all transformations and vectors, all non-degenerate metrics", "why_tests_cant": "universal over metrics", "anchors": ["galgebra/lt.py:Lt.adj"]}
{"id": "C31", "title": "Inverse transformation", "statement": "L.is_singular() is true exactly when L has no inverse, and otherwise L.inv() composed with L on either side is the identity.", "quantifier": "all transformations", "why_tests_cant": "universal over transformations", "anchors": ["galgebra/lt.py:Lt.is_singular", "galgebra/lt.py:Lt.inv"]}
{"id": "C32", "title": "Trace", "statement": "L.tr() is the sum of the diagonal entries of L's matrix, whatever the coordinate system.", "quantifier": "all transformations, all metrics including normalised curvilinear ones", "why_tests_cant": "the implementation differentiates along coordinates, so the answer depends on metric and coordinates", "anchors": ["galgebra/lt.py:Lt.tr"]}
{"id": "C33", "title": "Multilinear transformations evaluate to their components", "statement": "T(a_1,...,a_k) is multilinear in its arguments and T(e_i,...,e_j) is the corresponding component of T, in every metric; + and * of tensors evaluate pointwise; contraction of slots sums over the reciprocal frames.", "quantifier": "all tensors, ranks and metrics", "why_tests_cant": "universal over metrics and ranks", "anchors": ["galgebra/lt.py:Mlt.__call__", "galgebra/lt.py:Mlt.__init__", "galgebra/lt.py:Mlt.contract"]}
{"id": "C34", "title": "Scalar differential operators compose like functions", "statement": "(D1*D2)(f) == D1(D2(f)), (D1+D2)(f) == D1(f)+D2(f), (c*D)(f) == c*D(f), and D1 == D2 implies D1(f) == D2(f).", "quantifier": "all operators with function coefficients of every order, all functions f", "why_tests_cant": "orders, numbers of terms and coefficient functions are unbounded", "anchors": ["galgebra/dop.py:Sdop", "galgebra/dop.py:Pdop", "galgebra/dop.py:_consolidate_terms", "galgebra/dop.py:_merge_terms", "galgebra/dop.py:_eval_derivative_n_times_terms"]}
{"id": "C35", "title": "Multivector differential operators compose like functions", "statement": "For multivector-valued differential operators (D1*D2)*F == D1*(D2*F), (D1+D2)*F == D1*F + D2*F, and likewise for ^ | < >, for operators acting from the left and from the right.", "quantifier": "all operators of every order, all multivector functions", "why_tests_cant": "unbounded operators", "anchors": ["galgebra/mv.py:Dop", "galgebra/mv.py:Dop.Mul", "galgebra/mv.py:Dop.Add"]}
{"id": "C36", "title": "Christoffel symbols", "statement": "Christoffel symbols of the first kind are symmetric in the first two indices and metric compatible; those of the second kind are the first raised by the inverse metric.", "quantifier": "every coordinate dependent metric", "why_tests_cant": "universal over metrics", "anchors": ["galgebra/metric.py:Metric.Christoffel_symbols", "galgebra/metric.py:Metric.dg"]}
{"id": "C37", "title": "Differentiation in curvilinear coordinates obeys the product rule", "statement": "For every coordinate x, the derivative of a multivector function is additive, extends the derivative of scalars and satisfies d(A*B) == dA*B + A*dB, including the derivatives of the basis vectors.", "quantifier": "every coordinate dependent metric, all multivector functions", "why_tests_cant": "universal over metrics and functions", "anchors": ["galgebra/ga.py:Ga.pDiff", "galgebra/ga.py:Ga.blade_derivation", "galgebra/metric.py:Metric.de", "galgebra/mv.py:Mv.diff"]}
{"id": "C38", "title": "Differentiation does not depend on history", "statement": "The value of grad*A or A.diff(x) depends only on A and the algebra, not on which operations were performed before on the same algebra.", "quantifier": "every history of library calls", "why_tests_cant": "depends on the history of mutable flags on the algebra object", "anchors": ["galgebra/ga.py:Ga.dslot", "galgebra/ga.py:Ga.pDiff", "galgebra/lt.py:Mlt.pdiff", "galgebra/lt.py:Mlt.contract", "galgebra/lt.py:Lt.tr"]}
{"id": "C39", "title": "Equality is an equivalence and agrees with hash", "statement": "A == B is reflexive, symmetric and transitive, is true exactly when all blade coefficients agree, is congruent for the operations, and equal multivectors have equal hashes.", "quantifier": "all multivectors in all representations", "why_tests_cant": "universal over pairs", "anchors": ["galgebra/mv.py:Mv.__eq__", "galgebra/mv.py:Mv.__hash__"]}
{"id": "C40", "title": "Cached characteristics stay true", "statement": "After any sequence of operations on a multivector object, pure_grade(), is_blade(), is_versor() and the recorded grades describe its current value.", "quantifier": "every sequence of method calls including set_coef", "why_tests_cant": "staleness shows only after particular histories", "anchors": ["galgebra/mv.py:Mv.characterise_Mv", "galgebra/mv.py:Mv.set_coef", "galgebra/mv.py:Mv.pure_grade", "galgebra/mv.py:Mv.is_blade"]}
{"id": "C41", "title": "Algebras have identities", "statement": "Two algebras made by different constructor calls never compare equal (also when constructions fail in between); equality is an equivalence consistent with hash; mixing multivectors of different algebras raises.", "quantifier": "every history of constructions", "why_tests_cant": "histories are unbounded", "anchors": ["galgebra/ga.py:Ga.__eq__", "galgebra/ga.py:Ga.__hash__", "galgebra/metric.py:Metric.__init__", "galgebra/mv.py:Mv.__mul__"]}
{"id": "C42", "title": "Dual mode is global and only changed by valid requests", "statement": "After any history of dual_mode calls and Cl constructions the mode in force is the last valid one requested (default I+), it is the same for every algebra, and failed requests change nothing.", "quantifier": "every history", "why_tests_cant": "histories are unbounded", "anchors": ["galgebra/ga.py:Ga.dual_mode", "galgebra/interop/_cl.py:Cl", "galgebra/interop/kingdon.py:Cl"]}
{"id": "C43", "title": "Cl(p,q,r) builds the requested signature", "statement": "For all p,q,r >= 0 with p+q+r > 0, Cl(p,q,r) returns n = p+q+r basis vectors named by the documented scheme of which the first p square to 1, the next q to -1 and the last r to 0 and which anticommute; p+q+r == 0 raises.", "quantifier": "all signatures", "why_tests_cant": "unbounded signatures; the naming scheme switches at dimension 10", "anchors": ["galgebra/interop/_cl.py:Cl", "galgebra/interop/kingdon.py:Cl", "galgebra/metric.py:symbols_list"]}
{"id": "C44", "title": "Basis name expansion", "statement": "The basis description string root*s1|...|sn (and the list forms) expands to the n documented distinct names root_s1 ... root_sn, super- or subscripted as requested.", "quantifier": "all root and subscript strings", "why_tests_cant": "strings are unbounded", "anchors": ["galgebra/metric.py:symbols_list"]}
{"id": "C45", "title": "GAeval respects the requested operator precedence", "statement": "GAeval evaluates an expression string as if it were parsed with the precedence given to def_prec, operators of equal precedence associating to the left, explicit parentheses kept.", "quantifier": "all expression strings", "why_tests_cant": "the string rewriting depends on arbitrary nesting", "anchors": ["galgebra/_utils/parser.py:parse_line", "galgebra/_utils/parser.py:_parse_paren", "galgebra/_utils/parser.py:_unparse_paren", "galgebra/_utils/parser.py:_add_paren", "galgebra/printer.py:GAeval"]}
{"id": "C46", "title": "LaTeX capture restores standard output", "statement": "After any sequence of Format/LatexFormat and tex/restore calls ending with restore, standard output is the original stream and everything printed in between has been captured.", "quantifier": "every sequence of calls", "why_tests_cant": "histories are unbounded", "anchors": ["galgebra/printer.py:Format", "galgebra/printer.py:LatexFormat", "galgebra/printer.py:GaLatexPrinter.redirect", "galgebra/printer.py:GaLatexPrinter.restore", "galgebra/printer.py:tex"]}
{"id": "C47", "title": "LaTeX post-processing line discipline", "statement": "tex() leaves lines in ## blocks and lines starting with # verbatim (markers removed), rewrites only the text before the last = of other lines and wraps each of them in exactly one environment.", "quantifier": "all captured texts", "why_tests_cant": "texts are unbounded", "anchors": ["galgebra/printer.py:tex", "galgebra/printer.py:_texify"]}
{"id": "C48", "title": "Generic matrices have the requested symmetry", "statement": "Symbolic_Matrix(kernel, coords, f, mode) yields a general, symmetric or antisymmetric matrix whose entries are otherwise independent symbols.", "quantifier": "all sizes and modes", "why_tests_cant": "sizes are unbounded", "anchors": ["galgebra/lt.py:Symbolic_Matrix"]}
{"id": "C49", "title": "Metric classification", "statement": "The orthogonality flag is set exactly when all off-diagonal entries of the (symmetric) metric vanish, and the products computed depend on the metric only through its diagonal and upper triangle.", "quantifier": "all metrics", "why_tests_cant": "universal over matrices", "anchors": ["galgebra/metric.py:Metric.__init__", "galgebra/ga.py:Ga.reduce_basis_loop"]}
{"id": "C50", "title": "Submanifold metric", "statement": "The metric of a submanifold given by an embedding is the pullback J^T g J, hence symmetric.", "quantifier": "all embeddings and ambient metrics", "why_tests_cant": "universal over embeddings", "anchors": ["galgebra/ga.py:Sm.__init__"]}
{"id": "C51", "title": "Signature", "statement": "signature() returns (p,q) with p the number of positive and q the number of negative squares of an orthogonalised basis, p+q equal to the rank.", "quantifier": "all diagonal metrics", "why_tests_cant": "universal over metrics", "anchors": ["galgebra/metric.py:Metric.signature"]}
{"id": "C52", "title": "Connection lookup can be repeated", "statement": "connection(rbase, key_base, mode, left) returns the same value each time it is asked.", "quantifier": "every history of requests", "why_tests_cant": "the failing history needs a repeated request", "anchors": ["galgebra/ga.py:Ga.connection"]}
{"id": "C53", "title": "Sums, powers and commutators", "statement": "Addition is a commutative group, A**k is the k-fold product (negative k of the inverse), A>>B and A<<B are half the commutator and anticommutator, and the commutator satisfies the Jacobi and Leibniz identities.", "quantifier": "all multivectors and exponents", "why_tests_cant": "universal law", "anchors": ["galgebra/mv.py:Mv.__add__", "galgebra/mv.py:Mv.__sub__", "galgebra/mv.py:Mv.__pow__", "galgebra/mv.py:Mv.__lshift__", "galgebra/mv.py:Mv.__rshift__", "galgebra/ga.py:Ga.com"]}
{"id": "C54", "title": "Cross product", "statement": "cross(a,b) is the dual of the outer product in dimension 3 (raising otherwise): antisymmetric and orthogonal to both arguments.", "quantifier": "all vectors in three dimensions", "why_tests_cant": "universal over vectors", "anchors": ["galgebra/mv.py:cross"]}
{"id": "C55", "title": "compare finds the scale factor", "statement": "compare(A,B) returns a non-zero factor exactly when one multivector is a scalar multiple of the other, namely c with B == c*A, and 0 otherwise.", "quantifier": "all pairs of multivectors", "why_tests_cant": "universal over pairs", "anchors": ["galgebra/mv.py:compare"]}
{"id": "C56", "title": "Multivector constructors", "statement": "ga.mv(name, kind) has components exactly in the requested grades, with pairwise distinct coefficient symbols, and mv from a list of coefficients has exactly those coefficients.", "quantifier": "all kinds, grades and dimensions", "why_tests_cant": "unbounded dimensions", "anchors": ["galgebra/mv.py:Mv.__init__", "galgebra/mv.py:Mv._make_grade", "galgebra/mv.py:Mv._make_vector"]}
{"id": "C57", "title": "Forms of the metric argument", "statement": "Every documented form of the metric argument gives the documented matrix: a single row of tokens is the diagonal, several rows give all entries, '#' stands for the symbolic inner product of the two basis vectors (the same symbol at (i,j) and (j,i)), a list of scalars is the diagonal, a list of lists is kept, a position vector gives the products of its derivatives; ragged or wrongly sized input is rejected; normalisation rejects oblique metrics and otherwise makes every square +1 or -1.", "quantifier": "all dimensions, all metric strings, lists and matrices", "why_tests_cant": "unbounded dimensions and strings", "anchors": ["galgebra/metric.py:Metric.__init__", "galgebra/metric.py:Metric.metric_symbols_list", "galgebra/metric.py:Metric._build_metric_element", "galgebra/metric.py:Metric.normalize_metric"]}
{"id": "C58", "title": "Printed multivectors", "statement": "The text and the LaTeX of a multivector show every blade that occurs exactly once with its whole coefficient, scalar part first and then in the order of the blades, whatever the order of the terms in the expression; a minus sign of a term becomes the sign of the sum; Fmt(2) puts each grade and Fmt(3) each term on a line of its own and changes nothing else; the format may be given as a number or, as in the docstring, as a string.", "quantifier": "all algebras, dimensions, sums of terms, formats, and ways of writing a coefficient or a symbol", "why_tests_cant": "unbounded sums and dimensions", "anchors": ["galgebra/mv.py:Mv._sympystr", "galgebra/mv.py:Mv._latex", "galgebra/mv.py:Mv.Fmt"]}
{"id": "C59", "title": "Printed containers", "statement": "Fmt of a list, tuple or dict is a LaTeX array with one cell for each element, in order, between the brackets of the container; format 1 is a row, any other format a column; a dict shows keys and values.", "quantifier": "all containers, lengths and texts of the elements", "why_tests_cant": "unbounded lengths", "anchors": ["galgebra/printer.py:Fmt"]}
{"id": "C60", "title": "Reciprocal blades and the derivative by a multivector", "statement": "In an algebra with an invertible metric the reciprocal blade e^I that make_grad uses satisfies <e^I e_J> = 1 if I = J and 0 otherwise, has the grade of e_I, and <e^I X> is the coefficient of e_I in X. If A is a multivector all of whose blades of certain grades have independent symbols as coefficients, make_grad(A) applied to the scalar part of A*B gives the part of B in these grades, applied to the scalar part of A*A gives 2*A, applied to A itself gives the number of symbols (the dimension, if A is a vector), applied to A*B with a constant B gives B times that number; it is additive and vanishes on fields that do not contain the symbols. In an algebra with position-dependent basis vectors it can also be applied to fields that are not scalars.", "quantifier": "all dimensions and metrics with invertible determinant (orthogonal or not), all sets of grades, all index sets, all multivectors B free of the symbols", "why_tests_cant": "the identity ranges over every metric, dimension and set of grades; tests compare one printed operator for two or three fixed algebras", "anchors": ["galgebra/ga.py:Ga._reciprocal_of_basis_blade", "galgebra/ga.py:Ga.make_grad", "galgebra/ga.py:Ga.pDiff", "galgebra/mv.py:Dop.Mul"]}
{"id": "C61", "title": "Coefficient-wise operations: collect, func, simplify, subs, split", "statement": "metric.linear_expand and metric.collect regroup a sum: the total coefficient of every symbol is kept and no symbol is repeated. Mv.collect() returns an equal multivector. Mv.func(f) and Mv.simplify(modes) apply the function(s), in the order given, to the coefficient of every blade that occurs and to nothing else; modes that keep the value of every scalar keep the multivector. Mv.subs commutes with every operation of the class: substituting in the result of a program gives a multivector equal to the result of the same program run on the substituted operands, provided the substitution leaves the metric unchanged. Ga.split_multivector returns the scalar part and the rest.", "quantifier": "all dimensions, all metrics, all multivectors in either representation, all programs over the operators of the class (sums, products, contractions, powers, commutators, grade functions, involutions), all substitutions that are ring homomorphisms of the scalars, all lists of modes", "why_tests_cant": "The tests call subs and simplify on single objects; that substitution commutes with arbitrarily nested products in arbitrary algebras quantifies over programs and metrics.", "anchors": ["galgebra/metric.py:linear_expand", "galgebra/metric.py:collect", "galgebra/mv.py:Mv.collect", "galgebra/mv.py:Mv.func", "galgebra/mv.py:Mv.simplify", "galgebra/mv.py:Mv.subs", "galgebra/ga.py:Ga.split_multivector"]}
{"id": "C62", "title": "Names of the basis blades", "statement": "With wedge printing, two different basis blades never have the same text (the basis names are distinct and contain no '^'); the same holds for products of basis vectors ('*'). With wedge=False a blade is printed as root_subscripts; this raises exactly when a basis name of the blade does not consist of a root and one subscript or the roots differ, and different blades have different texts when the subscripts are distinct and of one length. bases_dict(prefix) has one entry for every basis blade except the scalar, under the prefix followed by the digits of its subscripts, when the subscripts are distinct digit strings of one length, in particular for Cl(p,q,r) with up to nine vectors.", "quantifier": "all dimensions, all lists of basis names satisfying the stated conditions, all prefixes, all pairs of blades, both print modes", "why_tests_cant": "Distinctness of 2^n names for every n and every list of names cannot be enumerated; the tests look at a few algebras.", "anchors": ["galgebra/atoms.py:BasisBladeSymbol", "galgebra/atoms.py:BasisBladeNoWedgeSymbol", "galgebra/atoms.py:BasisBaseSymbol", "galgebra/ga.py:Ga.bases_dict"]}
{"id": "C63", "title": "The component listing of a multilinear function and its LaTeX form", "statement": "The components of a multilinear function whose expanded value is a sum of products are listed with strictly increasing slot symbols, every monomial in the slot symbols that occurs is listed exactly once, its coefficient is the sum of the coefficients of all the terms with that monomial, and the listed components add up to the function. Printed with lcnt components per line, the LaTeX form is an aligned environment whose lines hold the components in order, lcnt to a line, with one alignment mark per line, line breaks exactly between the lines, a plus sign before every component that does not bring its own minus sign, and parentheses round coefficients that are sums.", "quantifier": "all expressions, all numbers of terms and factors, all values of the slot symbols, all numbers of components and all line lengths", "why_tests_cant": "the grouping depends on the order of any number of terms and the line breaks on the remainder of the number of components; tests print one or two tensors", "anchors": ["galgebra/lt.py: Mlt.expand_expr, Mlt._latex, Mlt.Fmt"]}
{"id": "C64", "title": "The covariant derivative of a tensor obeys the product rule", "statement": "If T is a tensor field with k arguments, T.cderiv() is a tensor field with k+1 arguments, whatever derivatives were computed before on the algebra. Its value on vector fields B_1, ..., B_k, A is the derivative of T(B_1, ..., B_k) in the direction of A minus the sum over i of T with B_i replaced by the derivative of B_i in the direction of A. In particular the covariant derivative of the tensor X -> V.X of a vector field V is (X, A) -> ((A.grad) V).X, and the covariant derivative of the metric tensor is zero.", "quantifier": "all differentiable scalar rings, all dimensions, all non-degenerate metrics with or without normalisation, all numbers of arguments, all tensors, all vector fields, all earlier calls", "why_tests_cant": "the rule is an identity between derivatives of any number of factors in a moving basis; a test evaluates one tensor in one coordinate system", "anchors": ["galgebra/lt.py: Mlt.cderiv, Mlt.__call__, Mlt.increment_slots", "galgebra/mv.py: Dop.Mul, Mv.__or__", "galgebra/ga.py: Ga.pDiff, Ga.grad"]}
{"id": "C65", "title": "Gradient, divergence, curl and Laplacian in curvilinear coordinates", "statement": "In an algebra with coordinates and metric tensor g_ij(x), with or without norm=True: grad*f of a function f is the vector with contravariant components sum_j g^ij d_j f; grad|V of a vector field V is sum_i (d_i V^i + V^i d_i(det g)/(2 det g)), the divergence (1/sqrt g) d_i(sqrt g V^i); grad|(grad*f) and grad*(grad*f) are the Laplace-Beltrami operator of f; grad^(grad^A) is zero for every multivector field A; grad*A is grad<A + grad^A for every A. In flat coordinates (the derivatives of the basis vectors commute) grad*(grad*A) of every multivector field A is sum_ij g^ij d_i d_j A + sum_j c_j d_j A with scalar coefficients c_j = divergence of g^.j. The same holds with grad written on the right (rgrad), with > for <. V^i is the component along the coordinate basis vector, that is the coefficient divided by the normalisation factor.", "quantifier": "all differentiable scalar rings, all dimensions, all non-degenerate coordinate metrics (orthogonal or oblique, flat or curved) with or without normalisation, all functions, vector fields and multivector fields", "why_tests_cant": "the identities relate derivatives of the metric, of its determinant and of the field in every dimension and for every metric; tests print the result for a few coordinate systems", "anchors": ["galgebra/ga.py: Ga.grad, Ga.grads, Ga.pDiff, Ga.connection tables", "galgebra/mv.py: Mv.__mul__, Mv.__xor__, Mv.__or__, Dop.Mul", "galgebra/metric.py: Metric.derivatives_of_basis"]}
{"id": "C66", "title": "ga.mv with several names, several kinds, functions and keywords", "statement": "ga.mv('a b c', kind, ...) returns, in order, exactly what ga.mv('a', kind, ...), ga.mv('b', kind, ...), ga.mv('c', kind, ...) return, or raises the first exception one of them raises; with as many kinds as names, ga.mv('a b', 'k1 k2', ...) pairs them; different numbers raise ValueError. With f=True the coefficients are functions of all coordinates, with f=(x, ...) functions of these, otherwise symbols, in exactly the blades the kind or grade asks for and named after them. A keyword argument that is not known never passes unnoticed.", "quantifier": "all algebras, all lists of names and kinds, all further positional arguments and keyword arguments", "why_tests_cant": "unbounded numbers of names and all combinations of positional and keyword arguments", "anchors": ["galgebra/ga.py: Ga.mv", "galgebra/mv.py: Mv.__init__, Mv._make_grade, Mv._make_scalar, Mv._make_mv, Mv._make_even, Mv._make_odd", "galgebra/_utils/kwarg_parser.py: KwargParser"]}
{"id": "C67", "title": "LaTeX names of symbols and printed derivatives", "statement": "In the LaTeX form of a symbol every maximal run of letters that is the name of a letter of the special alphabet (Greek letters, hbar, ...) becomes that letter's command, everything else of the name is left alone, and the superscripts and subscripts follow in braces; letters that already are commands are not escaped again; the order in which the alphabet happens to be sorted makes no difference. The LaTeX form of a derivative lists the variables in order, one item with its order per run of equal variables, and in fraction form the total order on top; the text form lists each variable with its order.", "quantifier": "all names cut into words and other characters, all orders of the alphabet, all lists of variables and orders, all ways of printing the variables", "why_tests_cant": "unbounded names, and the alphabet's order depends on string hashing", "anchors": ["galgebra/printer.py: GaLatexPrinter._print_Symbol, GaLatexPrinter.special_alphabet, GaLatexPrinter._print_Derivative, GaPrinter._print_Derivative"]}
{"id": "C68", "title": "Numbers as operands of the operators", "statement": "In X+c, c+X, X-c, c-X, X*c, c*X, X^c, c^X, X|c, c|X, X<c, c<X, X>c, c>X, X<<c, c<<X, X>>c, c>>X, X/c and c/X with a multivector X and a number c, the number stands for the multivector c1: the call raises exactly if it does with ga.mv(c) in place of c, and otherwise gives an equal result.", "quantifier": "all algebras, all multivectors, all numbers, all ten operators on either side", "why_tests_cant": "the number goes through ten separate code paths and the reflected methods, with symbolic coefficients and metrics", "anchors": ["galgebra/mv.py: Mv._arithmetic_op, Mv.__mul__, Mv.__rmul__, Mv.__truediv__, Mv.__rtruediv__, Mv.__xor__, Mv.__rxor__, Mv.__or__, Mv.__ror__, Mv.__lshift__, Mv.__rshift__, Mv.__rlshift__, Mv.__rrshift__, Mv.__lt__, Mv.__gt__"]}
{"id": "C69", "title": "gprint and the documents of gxpdf", "statement": "gprint shows its arguments in order, strings as they are and other values in LaTeX (or as text when LaTeX is off), and starts a new equation at every double backslash of a string after the first argument; every equation is enclosed in one equation* environment (in a notebook: displayed on its own). A document written by gxpdf consists of the heading for the paper size, class and font size, the preamble, and exactly what was printed since the last gxpdf, in order; the printer settings are those of the last gFormat.", "quantifier": "all argument lists, all texts, all programs of gFormat, gprint, gPrint_Function and gxpdf calls, all options", "why_tests_cant": "arbitrary texts and call sequences with module state", "anchors": ["galgebra/gprinter.py: gFormat, gprint, gxpdf, paper_format, gPrint_Function, LaTeX"]}
{"id": "C70", "title": "powers and function calls in LaTeX", "statement": "The LaTeX text of a power shows its base and its exponent: as a root for exponents 1/q and -1/q, as a fraction for inverses, otherwise as a superscript on the base, which is enclosed in braces or brackets unless it is a symbol, number or function without scripts. The text of a function call is the name (a LaTeX function or a typeset symbol), its exponent and all its arguments in order; with fold_func_brackets, omit_function_args and inv_trig_style the brackets, the arguments and the name change as documented. Neither text ever contains a double superscript or an unbalanced brace if the texts of the parts do not.", "quantifier": "all bases, exponents, names, arguments and texts of the parts, all printer settings", "why_tests_cant": "arbitrary texts and all combinations of settings and cases", "anchors": ["galgebra/printer.py: GaLatexPrinter._print_Pow, GaLatexPrinter._print_Function"]}
{"id": "C71", "title": "correlation coefficient", "statement": "correlation(u, v) of two vectors of n >= 1 real numbers is Pearson's correlation coefficient: it is between -1 and 1 (up to the rounding of the denominator to dec digits), symmetric, unchanged by shifts and positive factors of either vector, changes sign with a negative factor, is 1 exactly if v is an increasing affine function of u, and is not a number exactly if one of the vectors is constant.", "quantifier": "all n >= 1, all pairs of real vectors of length n, all shifts and factors, all relative errors of evalf", "why_tests_cant": "infinitely many vectors of every length; the bound and the converse for the value 1 are universal statements", "anchors": ["galgebra/mv.py: correlation"]}
{"id": "C72", "title": "functions of the module", "statement": "Each function of the module (dual, undual, even, odd, g_invol, grade, inv, shirokov_inverse, hitzer_inverse, qform, norm2, norm, mag2, mag, proj, rot, refl, rev, ccon, scalar, sp) has the documented effect: undual(dual(A)) and dual(undual(A)) return A, g_invol negates the odd part, ccon(A) is the reverse of g_invol(A), sp(A, B) is the scalar part of A*B and sp(A, B, 'rev') that of rev(A)*B, both symmetric, qform(A) is sp(A, A, 'rev'), the inverses are two-sided inverses, proj(B, A) is the orthogonal projection of A into B (not of B into A), refl(B, A) is the sum of (-1)^(s(r+1)) B<A>_r/B over the grades r of A for a blade B of grade s, rot(itheta, A) rotates A, norm2 = |qform|, norm is its square root and at most mag. Every function but exp refuses an argument that is no multivector, the real-valued functions qform, norm2, norm, mag2 and mag with a TypeError, the others with a ValueError; exp of a number is sympy's exp.", "quantifier": "all multivectors of all algebras, all blades, all dual modes and hints, all arguments that are no multivectors", "why_tests_cant": "infinitely many multivectors, dimensions and metrics; the order of the arguments and the signs only show in general position", "anchors": ["galgebra/mv.py: dual, undual, even, odd, g_invol, exp, grade, inv, shirokov_inverse, hitzer_inverse, qform, norm2, norm, mag2, mag, proj, rot, refl, rev, ccon, scalar, sp", "galgebra/mv.py: Mv.sp"]}
{"id": "C73", "title": "The directional derivative of a tensor differentiates its components", "statement": "If T is a tensor field with k arguments, T.dd() is a tensor field with k+1 arguments. Its value on vector fields B_1, ..., B_k, A is the derivative of T(B_1, ..., B_k) in the direction of A minus the sum over i of T with B_i replaced by the vector whose components are the derivatives of those of B_i. If the components of all B_i are constant it is the derivative of T(B_1, ..., B_k) in the direction of A. In a frame with constant metric T.dd() and T.cderiv() have the same values.", "quantifier": "all differentiable scalar rings, all dimensions, all non-degenerate metrics with or without normalisation, all numbers of arguments, all tensors, all vector fields", "why_tests_cant": "an identity between derivatives of products of any number of factors, for every metric and every tensor; a test evaluates one tensor in one frame", "anchors": ["galgebra/lt.py: Mlt.dd, Mlt.__init__, Mlt.__call__", "galgebra/mv.py: Dop.Mul", "galgebra/dop.py: Pdop.__call__"]}
{"id": "C74", "title": "the listing of the components of a multilinear function", "statement": "T.comps() returns one line \"i:(i_1, ..., i_k):value\" for each of the n^k index tuples, numbered from 0, in the order of an odometer (the last index runs fastest), each tuple exactly once, where value is the component of T for that tuple.", "quantifier": "all tensors of all ranks over all algebras with a non-degenerate metric, all line numbers and index tuples", "why_tests_cant": "infinitely many ranks, dimensions and tensors; a wrong order or pairing of values and tuples only shows for tensors without symmetry", "anchors": ["galgebra/lt.py: Mlt.comps", "galgebra/lt.py: Mlt.__call__"]}
{"id": "C75", "title": "multilinear functions given by a Python function", "statement": "T = Mlt(f, ga) for a multilinear scalar-valued Python function f of vectors satisfies T(x_1, ..., x_k) = f(x_1, ..., x_k) for all vectors, its components are the values of f on the basis vectors, and T1 + T2, T1 - T2, c*T and T1*T2 have the sums, differences, multiples and products of the values, also when one operand is given by components.", "quantifier": "all multilinear functions of all ranks, all algebras with a non-degenerate metric, all vectors, all numbers of slot vectors made before", "why_tests_cant": "infinitely many functions, ranks, metrics and vectors; the sums go through the component expression and lose the function, which only shows in oblique frames", "anchors": ["galgebra/lt.py: Mlt.__init__", "galgebra/lt.py: Mlt.__call__", "galgebra/lt.py: Mlt.__add__, Mlt.__sub__, Mlt.__mul__"]}
{"id": "C76", "title": "printed linear transformations", "statement": "str(L) has one line 'Lt(e_i) = v' for each basis vector e_i, in order, and its LaTeX one row 'e_i \\\\mapsto v', where v is the printed L(e_i); two transformations have the same text exactly if they map every multivector to the same image, provided that exactly the equal multivectors are printed alike.", "quantifier": "all linear transformations of all algebras, all printers of multivectors and basis symbols whose texts have no line breaks", "why_tests_cant": "infinitely many transformations and dimensions; injectivity of the text concerns all pairs", "anchors": ["galgebra/lt.py: Lt._sympystr", "galgebra/lt.py: Lt._latex"]}
{"id": "C77", "title": "inverse metric of a Metric object", "statement": "The g_inv of a Metric object is the two-sided inverse of its metric tensor g, also if the determinant is a symbol that stands for det g; it is the same matrix as the g_inv of the geometric algebra with this metric, and both give the same Christoffel symbols of both kinds.", "quantifier": "all metrics of all dimensions with invertible determinant, all derivations, both kinds of Christoffel symbols", "why_tests_cant": "infinitely many metrics and dimensions; Metric and Ga have separate code for the inverse", "anchors": ["galgebra/metric.py: Metric.g_inv", "galgebra/metric.py: Metric.g_adj", "galgebra/metric.py: Metric.Christoffel_symbols"]}
{"id": "C78", "title": "flatten", "statement": "utils.flatten turns a nested list into the flat list of the values in it, from left to right: the result contains no list, flattening it again changes nothing, flattening a concatenation gives the concatenation, and additional brackets do not matter.", "quantifier": "all nested lists of any depth and length, with strings and other values at the ends", "why_tests_cant": "the nesting depth is unbounded", "anchors": ["galgebra/utils.py: flatten", "galgebra/utils.py: isstr"]}
{"id": "C79", "title": "the table printed by oprint", "statement": "oprint(title1, object1, title2, object2, ...) prints one row per pair, in order: the title alone if the object is None, title and object below each other if the object has several lines, and otherwise 'title = object' with blanks after the title, so that all the objects on one line start in the same column, the smallest one possible.", "quantifier": "all lists of titles and objects of any length, all printed texts of the objects", "why_tests_cant": "the width depends on all the rows; infinitely many tables", "anchors": ["galgebra/printer.py: oprint", "galgebra/printer.py: ostr"]}
