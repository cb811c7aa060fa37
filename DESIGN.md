# Formal model of pygae/galgebra in Rocq (Coq 8.16.1)

## Approach

* Scalars.  SymPy is not modelled.  A scalar expression is an element of an
  arbitrary commutative ring `R` with decidable equality and a partial inverse
  (mathcomp `comUnitRingType`; a field, or a ring with commuting derivations,
  where the property needs it).  `2` is invertible wherever the code writes 1/2
  or the algebra is identified with the textbook one.
* Multivector expressions.  The SymPy sum stored in `Mv.obj` is a list of terms
  `(coefficient, word)`.  A word is a product of basis blade symbols or, in
  non-orthogonal algebras, of basis products ("bases") with an index list.  The
  order and multiplicity of terms is arbitrary.
* Denotation.  An expression is mapped to an element of the Clifford algebra of
  the metric.  That algebra is constructed independently of the code (Chevalley's
  action on the exterior algebra, `Exterior.v`, `Clifford.v`) and proved to be
  the unique product satisfying the textbook axioms (`Spec_Clifford.v`,
  `Clifford_Unique.v`).  Each operation of the code is then proved to denote the
  mathematical operation.
* Python control flow (loops with mutation, dictionaries, negative list indices,
  early returns, exceptions) is mirrored by total functions on lists, with
  explicit fuel for `while` loops (proved sufficient) and `None` for exceptions.
* Global and cached state (lazy tables, `dual_mode`, `dslot`, `connect_flg`,
  object caches, slot vectors, printer redirection) is modelled by explicit
  state machines.
* Statements false of the faithful model are proved as `..._refuted` with a
  witness; they are findings, listed at the end.

## Trusted base

* Coq's kernel (8.16.1) including its virtual machine (`vm_compute` is used in
  concrete examples and witnesses).
* Axioms: none in the property theorems.  `Print Assumptions` follows every
  property theorem in the `Props_*.v` files, and each prints "Closed under the
  global context", with these exceptions: `C21_case` (Props_Exp_Case.v), the concrete
  instance of the exponential over the complex numbers, `complex_laws` (Cplx.v)
  that it uses, and `C22_case` and `C22_root_sign_refuted` (Props_Norm_Case.v), the
  concrete instances of the norms over the real numbers.  They rest on the standard library's axioms of the
  real numbers: `ClassicalDedekindReals.sig_not_dec`,
  `ClassicalDedekindReals.sig_forall_dec`,
  `FunctionalExtensionality.functional_extensionality_dep`,
  `ClassicalEpsilon.constructive_indefinite_description` and
  `Classical_Prop.classic`.
* `coqchk` additionally lists parameters of mathcomp and ssreflect module types
  (`mathcomp.ssreflect.finset.SetDef.*`, `bigop.BigOp.*`, `Coq.ssr.ssrunder.*`,
  ...).  These are definitions sealed by those libraries, not axioms of the model.
* The libraries used are mathcomp (ssreflect, algebra, field) and Coq's `String`,
  `Ascii`, `ZArith`, and `Reals` (Cplx.v and Props_Norm_Case.v only).
* The model: that the definitions in the `*_Model.v` files do what the cited
  lines of /repo do.  The model was written by reading; the code was not run.
* SymPy: `expand`, `simplify`, `trigsimp`, `collect`, `subs`, `xreplace`, `diff`,
  `Matrix` products, inverses and determinants, and `==` on scalars are taken to
  be the mathematical operations on elements of `R`.  What a method asks SymPy
  beyond ring operations is a parameter of the model with the assumption stated
  in the theorem: square roots (`sy_sqrt`, `me_root`), signs of numbers
  (`sy_pos`, `me_pos`), derivatives by coordinates (`me_diff`).

## What is modelled

| file of /repo | modelled | file of the model |
|---|---|---|
| `ga.py` | blade and base tables, reduction of words, conversion between representations, geometric, outer and inner products, grade functions, reverse, even/odd (203-449, 1000-1800) | `Ga_Model.v` |
| `ga.py` | lazy product tables (57-90), cached properties | `Lazy_Model.v` |
| `ga.py` | pseudoscalar, dual modes, reciprocal basis, inverse metric, reciprocal frames | `Dual_Model.v` |
| `ga.py` | blade derivation, `pDiff`, gradients, `connection`, `dslot`, `connect_flg` | `Diff_Model.v` |
| `ga.py` | class `Sm`: metric of a submanifold | `Metric_Model.v` |
| `metric.py` | constructor, forms of the metric argument, `normalize_metric`, `signature`, Christoffel symbols, `dg`, `de` | `Metric_Model.v` |
| `metric.py`, `interop/` | basis names, `Cl` factories | `Names_Model.v` |
| `mv.py` | operators, grade functions, inverse, equality, `cross`, norms | `Mv_Model.v`, `Mv_Expr.v`, `Dual_Model.v` |
| `mv.py` | coefficient access, constructors, `compare`, classification and its caches, identity of algebras | `Coef_Model.v` |
| `mv.py` | class `Dop` | `Dop_Model.v` |
| `dop.py` | classes `Sdop`, `Pdop` | `Dop_Model.v` |
| `lt.py` | class `Lt` | `Lt_Model.v` |
| `lt.py` | `Mlt`: `__init__` (vector, `Lt`, name, expression), `__call__`, `+`, `-`, `*`, `remove_slot`, `contract` | `Mlt_Model.v` |
| `lt.py` | `Symbolic_Matrix` | `Symat_Model.v` |
| `printer.py` | `redirect`, `restore`, `Format`, `LatexFormat`, `_texify`, `tex` (without the preamble, `prog` and `debug`) | `Printer_Model.v` |
| `mv.py` | `project_in_blade`, `reflect_in_blade` | `Blade_Model.v` |
| `mv.py` | `exp`, `rotate_multivector` | `Exp_Model.v` |
| `mv.py` | `norm2`, `norm`, `mag2`, `mag` | `Norm_Model.v` |
| `metric.py` | `abs_with_hint`, `square_root_of_expr` | `Norm_Model.v` |
| `mv.py` | `shirokov_inverse`, `hitzer_inverse` | `Inverse_Model.v` |
| `_utils/parser.py` | everything | `Parser_Model.v` |
| `printer.py` | `def_prec`, `GAeval` (up to `eval`) | `Parser_Model.v` |
| `mv.py` | `_sympystr`, `_latex` | `Format_Model.v` |
| `printer.py` | `Fmt` | `Format_Model.v` |
| Agrad_Model.v | ga.py:762-781 (make_grad of a multivector), 737-755 (reciprocal blades, in Dual_Model.v), 2041-2059 (pDiff by a symbol); mv.py:1781-1796 (application) |
| Coefwise_Model.v | metric.py 32-113, mv.py 892-918, 1487-1519, ga.py 1677-1699 | an expression is the list of its expanded terms; a mode or substitution is a function on scalars |
| BladeName_Model.v | atoms.py 22-125, ga.py 923-938, 1024-1035 | str() of a basis vector is its name; isdigit on ASCII; pretty and LaTeX printers of blades not modelled here |
| MltPrint_Model.v | lt.py:708-801 (Mlt.expand_expr, Mlt._latex) | SymPy expressions are trees with .args; coefficients are values; printing of a coefficient and of a symbol is a parameter; expand itself is not modelled |
| Cderiv_Model.v | lt.py:854-868, 963-983 (Mlt.__call__ on slot expressions, Mlt.cderiv); mv.py:1775-1800 (Dop.Mul of a scalar first-order operator) | a multivector with slot symbols is a list of terms; slot symbols are constants for the derivatives; self.f is not modelled |
| Props_Calculus.v (no new model) | ga.py:762-781, 1870-1900; mv.py:1775-1800, through Diff_Model.v | as for C37 |
| Create_Model.v | ga.py:867-904; mv.py:180-282, 285, 347-401; _utils/kwarg_parser.py:22-43 | positional arguments are strings, ints, lists of scalars, scalars or multivectors; bool is not told from int; exceptions only by class |
| Recip_Model.v | ga.py:906-921 | as Ga_Model.v |
| Symbol_Model.v | printer.py:322-344, 498-500, 581-626, 715-755 | split_super_sub, the lists greeks and other_symbols and the printing of variables and expressions are inputs; no colours; symbol_names is empty |
| Ops_Model.v | mv.py:516-600, 785-826, 840-890 | as Mv_Model.v; two numbers do not reach the class |
| Gprint_Model.v | gprinter.py:1-26, 105-300 | the preamble is an input; latex(x) and str(x) of the values are inputs; %-formatting is modelled for %s and %%; subprocess calls are recorded only; init_printing and ip_cmds are left out |
| Power_Model.v | printer.py:520-579, 633-713 | the texts of base, exponent, arguments and of -1*expr, and the answers of _needs_brackets, _needs_function_brackets and is_Function are inputs |
| Corr_Model.v | mv.py:2050-2064 | real entries; evalf of the denominator is an input; nan and exceptions are both None |
| Module_Model.v | mv.py:1161-1178, 2078-2333 | the mode and pseudoscalar of A.Ga, sympy's exp and the quotients of shirokov_inverse are inputs; an exception inside a method is Fails |
| Comps_Model.v | lt.py:989-1000 | str of a number is an input; an exception is None; the state is what is printed and the result |
| Fntensor_Model.v | lt.py:803-897 | the body of the function is a sum of terms c*(A_1\|x_i)*...*(A_m\|x_j); an exception is None |
| Ltprint_Model.v | lt.py:570-600 | the texts of basis symbols and multivectors are inputs; self.versor is never set |
| Metinv_Model.v | metric.py:527-597 | sympy's matrix inverse and adjugate are those of the matrix of values |
| Flatten_Model.v | utils.py:26-38 | iterables other than strings are lists |
| Oprint_Model.v | printer.py:164-165, 183-219 | the text of an object is an input; what was printed before an exception is not kept |

Files `Spec_*.v` hold the definitions the statements use; `*_Proof*.v`,
`Exterior.v`, `Clifford.v`, `Blades.v`, `Grades.v`, `GradeLaws.v`, `ContrLaws.v`,
`Det.v`, `Outer.v`, `ExtDeriv.v`, `Nabla.v`, `Inertia.v` hold the mathematics;
`Props_*.v` hold the theorems, named after the property.

## What is not modelled

* SymPy itself (see above), and how SymPy orders the arguments of sums and
  products: theorems hold for every order.
* Printing of multivectors (`Mv._sympystr`, `Mv._latex`), `Fmt` objects,
  deprecated aliases and their warnings, debug output.
* `utils.py`, `graded_dict`-style pickling, `mv.py` helpers for `Com`/`Nga`
  (numerical rounding), `interop` beyond the `Cl` factories.
* Python object identity, garbage collection, threads, and the iteration order
  of sets.
* Simplifications local to one definition are stated in its comment.

## Per property

What is modelled and how it is proved; `proved` and `partial` refer to MANIFEST.json.

* **C01** Basis blades enumerate the exterior basis (proved). Index tuples as lists; counting and sortedness by induction on lists.
* **C02** Blade lookup is a bijection (proved). Two-way tables as association lists; injectivity of the enumeration.
* **C03** Index reordering carries the right sign (proved). The insertion sort with sign; agreement with the sign of the permutation.
* **C04** Orthogonal geometric product of basis blades (proved). Merge of index lists with sign and metric factors; value in the constructed algebra.
* **C05** Reduction of basis-vector words terminates and preserves the value (proved). The word reduction loop with fuel; fuel sufficiency by a measure, value preservation step by step.
* **C06** The geometric product is the Clifford product of the metric (proved). Refinement of Ga.mul to the constructed Clifford algebra; uniqueness of that algebra.
* **C07** Multivectors form an algebra (proved). Python expressions over multivectors (Mv_Expr.v), run by the model and interpreted in the algebra.
* **C08** Products of vectors (proved). Same, for vectors.
* **C09** Base and blade representations are interchangeable (proved). Conversion tables and their inverses; value preservation.
* **C10** Outer product (proved). The outer product in orthogonal and non-orthogonal branch refines the exterior product.
* **C11** Inner products are grade selections of the geometric product (proved). The three inner products refine grade selections of the product.
* **C12** Lazily filled product tables are transparent (proved). Tables as state; invariant over all histories of products.
* **C13** Reversion is an anti-automorphism (proved). Reversal by grade signs; anti-automorphism of the algebra.
* **C14** Grade involution, Clifford conjugation and parity (proved). Grade signs.
* **C15** Grade decomposition is complete and orthogonal (partial). Grade projections. Holds for blade representations; for base representations grade/even/odd raise and scalar() is wrong (C15_base_rep_*_refuted).
* **C16** Coefficient extraction loses nothing (partial). Coefficient access functions on term lists. Holds for blade representations; blade_coefs() on a base representation returns other values (C16_base_rep_refuted).
* **C17** The unit pseudoscalar is normalised (proved). E, E*E and division by the square root.
* **C18** Duality is invertible in every dual mode (proved). Eight modes as expressions.
* **C19** Inverses are inverses (proved). mv.inv branches; uniqueness of inverses.
* **C20** Shirokov and Hitzer inverses (partial). mv_hitzer and mv_shirokov follow the code statement by statement (Inverse_Model.v). The closed forms are shown to have a scalar value U*num for every U: both are polynomial identities, so they are transferred from the complex numbers with a nondegenerate metric to every ring in which the positive integers are invertible (Transfer.v), where a matrix representation (Gamma.v) and the Faddeev-LeVerrier recursion (FadLev.v) prove Shirokov's, and a grade analysis proves Hitzer's (Hitzer.v). The quotient N / k is a parameter. hitzer_inverse: proved (a two-sided inverse whenever it returns, dimensions 0-5; over a field of characteristic 0 it returns on every invertible multivector). shirokov_inverse: proved in dimensions 1 and 2, and in every dimension when the quotients N/k are exact; Python computes them as doubles, and with any double for 4/3 the result is not the inverse (C20_shirokov_double_refuted). It raises on every scalar in dimension 0 and is wrong on base representations (C20_*_refuted).
* **C21** Exponential (proved). Exp_Model.v models exp() with SymPy's sqrt, cos, sin, cosh, sinh and the number/positivity tests as a record of parameters; Spec_Exp.v states the identities assumed of them (addition formulas, parity, cosh x = cos ix); Props_Exp.v proves the closed forms, the group law and the raise over any field; Cplx.v shows the complex functions satisfy the identities and Props_Exp_Case.v gives the concrete case. sqrt, cos, sin, cosh, sinh are parameters satisfying the identities of Spec_Exp.v; the complex functions satisfy them (complex_laws). SymPy simplification of the result is not modelled.
* **C22** Quadratic form and norms (proved). qform: Props_Mv.v. Norms: Norm_Model.v models abs_with_hint, square_root_of_expr, norm2, norm, mag2 and mag over an ordered field, with SymPy's knowledge about an expression as parameters that Spec_Norm.v assumes correct; PosDef.v proves that a positive definite metric makes the quadratic form positive definite on all multivectors; Props_Norm.v proves the norm laws. norm2, norm, mag2, mag over any ordered field, at real values of the symbols; the hint must not state a false sign. Further: positivity in a positive definite metric, mag >= norm, scaling, products with versors, triangle inequality. C22_root_sign_refuted is a finding about square_root_of_expr, which norm() repairs.
* **C23** Versor and blade tests are sound (partial). is_versor and is_blade as functions with caches. Versor test sound, and complete for products of invertible vectors; is_blade accepts every outer product of vectors and is exact in grade 2; the claim that it accepts only multivectors with scalar square is false (C23_blade_refuted).
* **C24** Projection and reflection in a blade (partial). Blade_Model.v models the two methods; BladeLaws.v proves the subspace algebra (contraction into a blade stays in its span, the projection is the outermorphism of the orthogonal projection) over any metric; Props_Blade.v states the laws with run/run_eq only. Rotation: Props_Exp.v, from the group law of C21 and the fact that the commutator with a bivector keeps the grade. project_in_blade and reflect_in_blade for every invertible outer product of vectors; rotate_multivector for every angle multivector whose square is a scalar (grades, inner and outer products and quadratic form: bivector angles). Partial only because the English claim fails in two cases: is_blade() wrongly accepts some multivectors (C24_not_a_blade_refuted) and reflect_in_blade raises for base representations (C24_base_rep_refuted).
* **C25** Reciprocal basis and inverse metric (proved). Reciprocal basis by the blade formula; inverse metric.
* **C26** Reciprocal frame of arbitrary vectors (proved). ReciprocalFrame of any list of vectors.
* **C27** Linear transformations are linear and round-trip through matrices (proved). Lt dictionaries and constructors; values as outermorphisms (Outer.v). C27_function_refuted and C27_lists_refuted: the constructors accept additive functions that are not linear, and lists of the wrong length.
* **C28** Algebra of linear transformations (proved). Same. For transformations whose dictionary has every basis vector as key, as all constructors except the one from a dictionary (and from too short lists) produce; C28_missing_key_refuted shows the failure otherwise.
* **C29** Outermorphism and determinant (partial). Outermorphism of the exterior algebra; determinant of the matrix. Proved for blade representations; L applied to a base representation leaves the base symbols unchanged (C29_base_rep_refuted); det() exists exactly for non-degenerate metrics.
* **C30** Adjoint (proved). Matrix identity g^-1 M^T g.
* **C31** Inverse transformation (proved). Determinant and inverse matrix.
* **C32** Trace (partial). Divergence of the image of the coordinate vector. tr() is the trace of the matrix for unnormalised metrics and entries that do not depend on the coordinates; its exact value in general is C32_value; false for normalised metrics and for variable entries (C32_*_refuted).
* **C33** Multilinear transformations evaluate to their components (partial). A component expression is a polynomial in the slot coefficients; a call is a simultaneous substitution. Proved by evaluating polynomials under an assignment of the slot coefficients. multilinearity, sums, differences and multiples are proved for every non-degenerate metric, and the exact value in components; T(e_i..e_j) = component and the product law hold for orthogonal metrics, and are refuted for oblique ones, where a power of the square of the pseudoscalar appears; contract() is refuted: it returns 0 for every tensor with constant coefficients; the name constructor is refuted after a tensor of higher rank was made. cderiv is C64, comps is C74, tensors given by Python functions are C75. Not modelled: pdiff beyond C38, ^ and | of tensors.
* **C34** Scalar differential operators compose like functions (proved). Term lists over a ring with commuting derivations. The converse of the equality clause (not claimed) is false: a zero order is remembered (C34_zero_order_refuted).
* **C35** Multivector differential operators compose like functions (partial). Same with multivector coefficients. Proved for operators acting to the right and to the left whenever the coordinate derivatives commute on basis vectors (flat space, any coordinates), for every product law that holds for multivectors: *, ^, and the mixed laws of < and > (C35_products). False for | (C35_inner_refuted) and, for every product, in curved algebras, where equal operators act differently (C35_curved_refuted).
* **C36** Christoffel symbols (partial). Tables of derivatives of the metric. Proved for all symmetric metrics without normalisation; with norm=True the second kind is raised by the wrong inverse (C36_normalised_refuted) and g='g' builds an unsymmetric matrix (C36_general_metric_refuted).
* **C37** Differentiation in curvilinear coordinates obeys the product rule (partial). Blade derivation as a derivation of the exterior algebra, metric compatibility. Ga.pDiff and grad are additive, extend the scalar derivative, satisfy the product rule and give the Christoffel derivatives of the basis, for every non-degenerate coordinate metric; Mv.diff raises whenever there is a connection (C37_diff_refuted); objects in base representation are outside the theorems.
* **C38** Differentiation does not depend on history (partial). dslot, connect_flg and derivative caches as state; invariant. Proved for all histories without Mlt.pdiff/contract and without a raising Lt.tr; false after those calls (C38_multilinear_refuted, C38_trace_refuted).
* **C39** Equality is an equivalence and agrees with hash (partial). Equality and hash. Equality proved; the hash part is false across representations (C39_hash_refuted).
* **C40** Cached characteristics stay true (partial). Cached flags as object state; invariant over operation sequences. Proved for all sequences of queries and representation changes; false after set_coef(), for objects made in the base representation, and for pure_grade() of mixed multivectors (C40_*_refuted).
* **C41** Algebras have identities (proved). Algebras tagged with their fields.
* **C42** Dual mode is global and only changed by valid requests (partial). Global mode as state. Proved except that a failing Cl construction has already changed the mode (C42_failed_construction_refuted).
* **C43** Cl(p,q,r) builds the requested signature (partial). Factories. Proved for n >= 2 names and all signatures; the one-dimensional name differs from the documentation (C43_one_dimension_refuted).
* **C44** Basis name expansion (partial). Strings as lists of characters. Proved except for a single subscript (C44_single_index_refuted).
* **C45** GAeval respects the requested operator precedence (partial). parse_line, _parse_paren, _unparse_paren, _add_paren, re.sub with the three patterns and def_prec as functions on lists of characters (Parser_Model.v); the theorems speak about the string that is handed to eval(). The string rewriting is modelled in full. Proved for all strings: spaces do not matter, mismatched parentheses raise, what def_prec accepts; for all sums of chains of the lowest class: exactly the chains are parenthesised; for a chain of any class with one such sum in parentheses among its factors: the chain and the products of the sum are parenthesised. The claim itself is false: C45_ends_refuted (a^b+c^d raises for all names), C45_nested_sum_refuted, C45_inner_chain_refuted, C45_left_assoc_refuted.
* **C46** LaTeX capture restores standard output (partial). Model the streams, `GaLatexPrinter`'s class variables and `Format_cnt` as a state and the calls as transitions; prove by induction over programs that an orderly program (Spec_Printer.v) captures exactly what it prints inside captures and gets its standard output back. The disorderly sequences are refuted. Proved for every orderly program; false for LatexFormat() during a capture, Format() after tex(), text returned twice by successive tex(), and the notebook flag during a capture (C46_*_refuted).
* **C47** LaTeX post-processing line discipline (partial). Model `_texify` and the loop of `tex` over strings; give the documented rules as an inductive relation (Spec_Printer.v) and prove that every captured text is treated by them, with no bound on the number or length of lines. Proved for all texts up to the number of blank lines (C47_blank_refuted); an = inside an align environment breaks the environment (C47_align_refuted).
* **C48** Generic matrices have the requested symmetry (proved). Model `Symbolic_Matrix` as loops that pop names off a list and assign matrix entries; entries are symbols or negated symbols. Prove by induction over the pairs visited that pair k receives name k, then symmetry, antisymmetry and independence for every size.
* **C49** Metric classification (proved). Orthogonality test.
* **C50** Submanifold metric (proved). Sm: pullback of the metric.
* **C51** Signature (partial). Sign counting; law of inertia (Inertia.v). Proved for orthogonal numeric metrics without null basis vectors, including independence of the orthogonal basis (Sylvester); null vectors are counted as negative (C51_degenerate_refuted) and an oblique metric just returns the hint (C51_hint, C51_oblique_refuted).
* **C52** Connection lookup can be repeated (partial). Connection cache as state. The first request returns the sum of products with the reciprocal vectors after every quiet history; the second equal request always raises (C52_second_call_raises, C52_repeat_refuted).
* **C53** Sums, powers and commutators (proved). Expressions.
* **C54** Cross product (proved). cross.
* **C55** compare finds the scale factor (partial). compare. The documented direction B == c*A is the inverse of the computed one (C55_documentation_refuted) and equal multiples with other term order give 0 (C55_order_refuted); the rest is proved.
* **C56** Multivector constructors (partial). Constructors. Components and shapes proved; symbols are distinct for prefix-free superscripts and can collide otherwise (C56_distinct_refuted, C56_default_names_refuted).
* **C57** Forms of the metric argument (proved). Metric.__init__ branches.
* **C58** Printed multivectors (partial). _sympystr and _latex line by line (Format_Model.v) on the list of arguments of the expanded sum, with the texts of coefficients and symbols as parameters; compared with a specification of the terms to be shown and of the line layout (Spec_Format.v). Text and LaTeX in all formats proved for every sum of terms and every way of writing a single term (nonempty, and without line break in text). False: the format as a string raises in LaTeX (C58_latex_string_refuted; in text it is ignored, C58_text), formats above 3 lose the multivector (C58_latex_format_refuted).
* **C59** Printed containers (partial). Fmt on the list of the LaTeX texts of the elements; exact layouts in Spec_Format.v. Exact layout of rows (at least one element) and columns (at least two). False for one element in a column (C59_single_refuted), for the empty row (C59_empty_refuted), for the values of a dict in a column (C59_dict_refuted). The notebook wrapper is not modelled.
* **C60** Reciprocal blades and the derivative by a multivector (partial). RecipBlades.v proves, for any vectors dual to the basis in a Clifford algebra, that their reversed outer products read off coefficients and expand every multivector; Agrad_Proof.v shows that the program computes these products, and the operator's value as a sum over blades; the derivatives of scalar products follow from the product rule with a constant metric. Proved: the operator on either side with any product mode is the sum over the blades of e^I times the partial derivative (C60_apply), duality of the reciprocal blades, reading off of coefficients, derivatives of <AB>, <AA>, A, A*B with a constant B (all parts; for these two, k! must be invertible for the grades k of A), constants, additivity. Not true, refuted: with a connection the operator raises for every field that is not a scalar (C60_connected_refuted).
* **C61** Coefficient-wise operations: collect, func, simplify, subs, split (proved). Model the loops of linear_expand and collect on lists of terms, Mv.collect with its dictionary, func, simplify and subs as maps on the coefficients. Prove that a ring homomorphism applied to all coefficients commutes with the Clifford product of a metric it fixes (MapCoef.v), then the statement for programs by induction on the program. Every clause of the statement is proved. Outside it: Mv.collect(deep=True) raises for every multivector (C61_collect_deep_refuted); a substitution that changes the square of a basis vector does not commute with the product (C61_subs_metric_refuted).
* **C62** Names of the basis blades (proved). Model the printers of the blade symbols and bases_dict on strings. Names are recovered from the text by splitting at the separator, or, without wedges, by cutting into pieces of equal length. Every clause of the statement is proved. Outside its conditions: wedgeless names collide for e_1,e_2,e_12 (C62_wedgeless_refuted); bases_dict collides for twelve numbered vectors (C62_dict_refuted) and keeps only the pseudoscalar when the names have no digits (C62_no_digits_refuted).
* **C63** The component listing of a multilinear function and its LaTeX form (partial). MltPrint_Model.v models expand_expr on expression trees with .args (split into coefficient and slot symbols, stable sort by the tuple of indices, merging of neighbours) and the line loop of _latex. Induction over the sorted list; induction over the lines of the listing. Proved for every sum of products (C63_components) and every line length (C63_latex). Refuted: a function with one non-zero component is listed as a number (C63_single_refuted, C63_factors_refuted), the zero function raises (C63_zero_refuted), and a full last line is followed by a line break when lcnt is neither 1 nor the number of components (C63_trailing_refuted).
* **C64** The covariant derivative of a tensor obeys the product rule (partial). Cderiv_Model.v models cderiv on multivectors whose coefficients are products of slot symbols: the operator a_(k+1)|grad, its action on the component expression and on each slot vector, and the call with such arguments. Spec_Cderiv.v gives the directional derivatives of scalars and of fields. Evaluation of the symbols turns the result into a derivation; Leibniz rule over the slots of each term, then the value of __call__ from C33. The exact value of T.cderiv() is proved for every non-degenerate metric, curved or flat, with and without norm=True (C64_value, C64_scalar). In orthogonal frames it is the product rule of the claim (C64_product_rule_partial, C64_vector_partial, C64_metric_partial). In oblique frames a factor, the square of the pseudoscalar, remains, and the rule is false (C64_oblique_refuted). Missing: tensors given by a Python function.
* **C65** Gradient, divergence, curl and Laplacian in curvilinear coordinates (proved). Model: Diff_Model.v (C37). Spec_Calculus.v states the classical formulas with the given metric matrix, its inverse and its determinant. Calculus.v: for a metric compatible derivative without torsion the exterior derivative squares to zero (antiderivation, zero on reciprocal vectors and on gradients), the divergence formula through the trace of the connection, Jacobi's formula for the derivative of a determinant. Props_Calculus.v: the basis derivatives of C37_basis are symmetric (no torsion) and compatible; every call of grad has as value the sum over the reciprocal vectors. For calls on a new algebra, as C37 (later calls: C52, C38). Scalars form a commutative ring with commuting derivations in which 2 is invertible; with norm=True the factors are square roots of +-g_ii.
* **C66** ga.mv with several names, several kinds, functions and keywords (partial). Model: Create_Model.v, Ga.mv and Mv.__init__ as functions of the list of positional arguments and the list of keyword arguments, with the exception that is raised as a value. Props_Create.v: the call with several names against the calls with one name each; the terms by blade for functions; every path of the constructor with an unknown keyword ends in an exception, except the two that are refuted. Missing: unknown keywords pass when a scalar value is given instead of a name (C66_scalar_keyword_refuted), several names cannot be combined with an integer grade (C66_integer_grade_refuted). The rest is proved; C66_keyword needs dimension at least 1.
* **C67** LaTeX names of symbols and printed derivatives (partial). Model: Symbol_Model.v, the replacement of the glyphs by place holders and back, and the loops over the variables of a derivative, on lists of characters. Symbol_Proof.v: str.replace on a text cut into words and gaps replaces whole words only. Props_Symbol.v: the result against Spec_Symbol.v, which maps each word on its own; the derivative against the unique decomposition of the variables into runs. Missing: ten or more different letters in one name (C67_ten_refuted), a letter escaped at one place only (C67_mixed_refuted), capital Greek letters and lambda (C67_capital_refuted). C67_name and C67_symbol need the words of the name to be letters of the alphabet or to contain none of them. sympy's split_super_sub is an input.
* **C68** Numbers as operands of the operators (partial). Model: Ops_Model.v, the dispatch of the operators on multivectors and numbers. Props_Ops.v: C68_meaning gives the value of each mixed operation in terms of the Clifford product and grade selection; C68_same compares with the operation on ga.mv(c). Missing: X < c and c > X for X in base representation of a non-orthogonal algebra, where the claim is false (C68_contraction_refuted). Everything else is proved for all operands.
* **C69** gprint and the documents of gxpdf (partial). Model: Gprint_Model.v, the module state and the loop that builds the format string, %-formatting, replace and split on lists of characters, the file names and the commands. Spec_Gprint.v: rows of a text and the equations of an argument list. Gprint_Proof.v: replace joins the rows, formatting with %-free strings inserts the values, splitting at @ recovers the equations. Props_Gprint.v: one call in each mode, whole programs, heading, names, and the findings. Proved for strings without % (and, in a notebook, texts without @). Refuted: % in strings (C69_percent_refuted), a double backslash in text mode (C69_plain_text_refuted), @ in a notebook (C69_at_refuted), gFormat after an import that followed printer.Format() (C69_import_refuted), the removal of the auxiliary files (C69_remove_refuted).
* **C70** powers and function calls in LaTeX (partial). Model: Power_Model.v, both methods as functions from the texts of the parts to text. Spec_Power.v: a scanner for double superscripts and balanced braces, the relation `shows` between a base, an exponent and a text, and the forms of a function call. Power_Proof.v: the scanner on concatenations and groups. Props_Power.v: power, folded power, function call in each style, absence of double superscripts, and the findings. Proved for all bases and exponents with the default settings; with fold_frac_powers for bases that need no brackets. For 1/b the text of -1*expr printed by sympy is assumed to be a minus sign and the fraction. Refuted: sums with fold_frac_powers (C70_fold_refuted), names containing cdot with a superscript (C70_scripts_refuted), function names with % (C70_call_refuted).
* **C71** correlation coefficient (partial). Model: Corr_Model.v, the two loops on the entries of a matrix, dot and norm over a real closed field, evalf as an input. Spec_Corr.v: mean, covariance, deviation. Props_Corr.v: the loops compute the centred vectors, Cauchy-Schwarz by Lagrange's identity, and from it the bound and the case of equality. Proved for column vectors (n x 1 matrices). False for row vectors, where only the first entry is centred (C71_row_refuted).
* **C72** functions of the module (partial). Model: Module_Model.v, one definition per function, with the class of the exception for arguments that are no multivectors, on top of the models of the methods. Props_Module.v: the documented laws of each function, derived from the theorems about the methods (C17-C24); the law of the scalar product from the trace property of the scalar part; the sign of refl from the definition of the reflection. Multivectors are in blade representation (or any, for dual, undual, rot, inv and proj). The documented sign of refl is false: the code uses (-1)^(r(s+1)) (C72_refl_sign), which differs from the documented (-1)^(s(r+1)) (C72_refl_formula_refuted). shirokov_inverse with exact quotients.
* **C73** The directional derivative of a tensor differentiates its components (partial). mlt_dd in Cderiv_Model.v: the operator a_(k+1)|grad applied to the component expression, without pDiff. Spec_Cderiv.v gives the derivative of the components of a vector field. The result is evaluated in the slot symbols as for C64, without the terms of the connection. The exact value of T.dd() is proved for every non-degenerate metric (C73_value, C73_scalar), and the agreement with cderiv in a constant metric (C73_cderiv). In orthogonal frames the value is the product rule of the claim (C73_product_rule_partial, C73_constant_partial); in oblique frames a factor, the square of the pseudoscalar, remains, as for C64. Missing: tensors given by a Python function. The value is modelled by the coefficient of the scalar multivector which the code stores.
* **C74** the listing of the components of a multilinear function (partial). Model: Comps_Model.v, the loop over the two cartesian products. Spec_Comps.v: the digits of a number, and the text of a line. Props_Comps.v: the cartesian product of ranges lists the digits of 0 .. n^k - 1 by induction on k, each tuple once; the value of each line by C33. The order, the numbers and the tuples are proved for every non-degenerate metric. The values are the components for orthogonal metrics (C74_components_partial); in oblique frames each has the factor E^2 for each argument (C74_listing, as in C33). A tensor of rank 0 raises (C74_rank0_refuted). The empty line before each group of n lines goes to the standard output and not into the result (C74_listing). str of a number is an input.
* **C75** multilinear functions given by a Python function (partial). Model: Fntensor_Model.v, the field f beside the component expression; the body of the function is a sum of products of inner products with constant vectors, evaluated on vectors or slot vectors. Spec_Fntensor.v: the value of such a function. Props_Fntensor.v: evaluation of the component expression under an assignment of the slot coefficients gives the value of the function, by linearity of the inner product; then as in C33. T(x...) = f(x...) and the components are proved in every frame. Sums, differences, multiples and products are proved for orthogonal frames, for any mixture of tensors from functions and from components; in oblique frames the exact value is proved (a power of the square of the pseudoscalar appears) and the law is refuted. The body of the function is a sum of products of inner products of the arguments with constant vectors; other bodies (a|b of two arguments, multivector values) are not modelled.
* **C76** printed linear transformations (partial). Model: Ltprint_Model.v, the loops of _sympystr and _latex with the texts of symbols and multivectors as inputs. Spec_Ltprint.v: separated texts and lines. Props_Ltprint.v: the text is the table of the images; the lines can be read back, so that the text determines the transformation on basis vectors and, by linearity and outermorphism, on all multivectors. Proved for transformations with an image for each basis vector. A dictionary that lacks a basis vector is printed with the image 0, although the basis vector is its own image (C76_missing_refuted). The branches for self.versor, which is never set, are left out.
* **C77** inverse metric of a Metric object (partial). Model: Metinv_Model.v, the branches of g_inv (orthogonal, with and without gsym) and Christoffel_symbols with this inverse. Props_Metinv.v: the result is the inverse matrix of mathcomp; the agreement with the algebra follows from C25 by uniqueness of the inverse. Proved for non-orthogonal metrics, with and without gsym. For an orthogonal metric g_inv raises TypeError, because the matrix is called as self.g(i, i) (C77_orthogonal_refuted).
* **C78** flatten (partial). Model: Flatten_Model.v, the loop of flatten over values that are strings, lists or not iterable. Spec_Flatten.v: the leaves of a nested list. Props_Flatten.v: by nested induction, the result is the list of leaves if these are strings. Proved for nested lists of strings, up to Python 3.9. Any other value inside makes flatten raise (C78_values_refuted); from Python 3.10 on it raises for every list that is not empty (C78_python310_refuted).
* **C79** the table printed by oprint (proved). Model: Oprint_Model.v, the slices, the width and the loop of oprint, with the texts of the objects as inputs. Spec_Oprint.v: the column as a maximum over the rows and the layout of a row. Props_Oprint.v: the printed texts are the rows of the layout; the columns can be read off a row. Proved for all tables with strings as titles. Two findings for other calls: a title at the end without a value is dropped (C79_last_title_refuted), and a first value that is a string is taken for a title (C79_titles_refuted).

## Findings

Proved (`_refuted` theorems; the statement is the expected behaviour, the theorem
exhibits a case of the model in which it fails):

* `C15_base_rep_grade_refuted`: grade(), even() and odd() of a base representation raise KeyError.
* `C15_base_rep_scalar_refuted`: scalar() of a base representation is not the scalar part of the multivector.
* `C16_base_rep_refuted`: blade_coefs() of a base representation is not the list of blade coefficients
* `C20_shirokov_base_rep_refuted`: given e0*e1 in base representation, shirokov_inverse reads the wrong scalar part and returns a multivector which is not the inverse
* `C20_shirokov_dim0_refuted`: in the algebra of dimension 0 shirokov_inverse raises on every scalar: the loop is not entered and adjU is unbound
* `C20_shirokov_double_refuted`: from dimension 3 on, the quotient 4 / 3 is rounded to a double, a fraction whose denominator is a power of two. With such a value, and every other number exact, shirokov_inverse does not return the inverse of 2 + e0
* `C22_root_sign_refuted`: finding: square_root_of_expr takes x as the root of x**2, which is negative at x = -1; norm() repairs this
* `C23_blade_refuted`: is_blade() answers True for a multivector of a five-dimensional algebra that is no blade.
* `C24_base_rep_refuted`: finding: reflect_in_blade raises for a multivector in base representation; project_in_blade does not
* `C24_not_a_blade_refuted`: finding: a multivector that is_blade() wrongly accepts (C23_blade_refuted) is accepted here too: in five dimensions the projection of the vector e0 into e0^e1^e2 + e0^e3^e4 is e0 + e0^e1^e2^e3^e4 up to sign, no vector
* `C27_function_refuted`: the constructor from a function tests additivity only: differentiation of coefficients is accepted and becomes the zero transformation.
* `C27_lists_refuted`: lists of any length are accepted: missing rows are missing keys, further rows are ignored
* `C28_missing_key_refuted`: a dictionary that lacks a basis vector is accepted; the basis vector is then its own image, but the sum takes the image as zero, and matrix() raises
* `C29_base_rep_refuted`: a transformation leaves the symbols of a base representation as they are: L(B) and L(B.blade_rep()) differ
* `C32_normalised_refuted`: on a line with metric x^2, normalised, the identity has trace 1/x instead of 1
* `C32_variable_refuted`: on a line with metric 1, the transformation e -> x e has trace 2x instead of x
* `C33_contract_refuted`: contract(1, 2) of the metric tensor of the Euclidean plane returns 0 instead of 2: the code differentiates by the coordinates, not by the slot vectors.
* `C33_name_refuted`: after a tensor of rank 2, a tensor of rank 1 made from a name has terms with symbols of both slots: T(e0) is not a number, and the component for e0 is lost
* `C33_oblique_mul_refuted`: in that plane the product of two tensors does not evaluate to the product of the values
* `C33_oblique_refuted`: in the plane with e0.e0 = 1, e0.e1 = 3, e1.e1 = 2 the rank 1 tensor with component 1 for e0 (and 0 for e1) has T(e0) = 7
* `C34_zero_order_refuted`: comparison is not complete: a zero order of differentiation is remembered
* `C35_TSimplify_refuted`: A * D is a multivector for an operator D acting to the left, but an operator for D.TSimplify()
* `C35_curved_refuted`: in a curved algebra (metric diag(1, x^4)) d/dx d/dy and d/dy d/dx are equal operators, but act differently
* `C35_inner_refuted`: (D1|D2)|F and D1|(D2|F) differ.
* `C36_general_metric_refuted`: with g='g' the entries above and below the diagonal are different functions, and the symbols are neither symmetric nor compatible
* `C36_normalised_refuted`: with norm=True the symbols of the second kind are not those of the given metric: the first kind is raised by the inverse of the normalised metric
* `C37_diff_refuted`: Mv.diff raises for every argument once there is a connection
* `C38_multilinear_refuted`: Mlt.pdiff and Mlt.contract leave the slot number on the algebra: afterwards the derivative of the same vector field is another one
* `C38_trace_refuted`: so does a call of Lt.tr in which the evaluation of the transformation raises: the flag for the connection stays off
* `C39_hash_refuted`: equal multivectors in different representations are hashed differently
* `C40_base_rep_refuted`: an object made in the base representation gives wrong classification answers.
* `C40_pure_grade_refuted`: finding: pure_grade() is the negative of the last grade for a mixed multivector, so e0 + 2 is reported with 0, the grade of a scalar
* `C40_set_coef_refuted`: finding: set_coef() leaves the cached answers in place. Adding a scalar to e0 gives a multivector that is not homogeneous, still reported as a blade of grade 1
* `C42_failed_construction_refuted`: but a Cl construction that fails while parsing the root has changed the mode
* `C43_one_dimension_refuted`: one dimension: the names are not the documented ones, kingdon has no basis vector at all
* `C44_single_index_refuted`: a single subscript is not expanded as documented.
* `C45_ends_refuted`: a sum that begins and ends with an outer product, like a^b + c^d, raises ValueError, whatever the names: the outer parentheses (a^b)+(c^d) are taken for a pair
* `C45_inner_chain_refuted`: two inner products in a row: the second one is evaluated after the geometric product, although its precedence is higher
* `C45_left_assoc_refuted`: four operands of inner products are grouped two by two, not from the left
* `C45_nested_sum_refuted`: the parentheses of a sum in which the first and the last term get parentheses are dropped: the sum is torn apart
* `C46_format_again_refuted`: Format() redirects once per process only: after the first tex() a second Format() leaves standard output alone, what follows goes to the terminal and the second tex() raises
* `C46_notebook_refuted`: the notebook mode during a capture: restore() then forgets the capture without ending it
* `C46_repeat_refuted`: tex() puts the text of the capture it ends back into the store: the next tex() returns it again
* `C46_twice_refuted`: LatexFormat() twice: the original stream is lost, no further call brings it back
* `C47_align_refuted`: finding: an = inside an align environment counts as the last one: the * of the environment's name is taken for an operator, the environment is destroyed and wrapped into another one
* `C47_blank_refuted`: finding: the documentation promises that the text of a ## block is emitted verbatim, but its blank lines disappear
* `C51_degenerate_refuted`: a null basis vector is counted as negative
* `C51_oblique_refuted`: for oblique metrics the hint is returned, by default (n, 0), although one of the two squares of every orthogonal basis is negative
* `C52_repeat_refuted`: the same request again raises, whatever it was
* `C55_documentation_refuted`: the documentation of compare(A, B) promises c with B == c*A
* `C55_order_refuted`: equal multivectors whose terms are listed in different orders compare as 0. (sympy orders the terms of a sum by coefficient: 2*e0 + 3*e1 and -2*e0 - 3*e1 are listed in opposite orders.)
* `C56_default_names_refuted`: two coefficients of one default general multivector can be the same symbol.
* `C56_distinct_refuted`: finding: the superscripts are concatenated without a separator, so two blades can get the same symbol: with basis 'e*1|2|12' both e_12 and e_1^e_2 have the coefficient A__12; the default names collide from dimension 12 on
* `C58_latex_format_refuted`: finding: a format above 3 is accepted, and the LaTeX no longer depends on the multivector
* `C58_latex_string_refuted`: finding: the format given as a string, as in the documentation, raises
* `C59_dict_refuted`: a dict in the default format: the values are not shown
* `C59_empty_refuted`: the empty list as a row: the end of the array's specification is cut off
* `C59_single_refuted`: a list of one element in the default format: the array is opened and never closed
* `C60_connected_refuted`: in an algebra with a connection the operator fails on every field that is not a scalar: the symbol is looked up among the coordinates
* `C61_collect_deep_refuted`: with deep=True it always raises
* `C61_subs_metric_refuted`: a substitution that changes the square of a basis vector does not commute with the product
* `C62_dict_refuted`: with twelve vectors the vector e_12 and the blade e_1^e_2 have one key
* `C62_no_digits_refuted`: names without digits: all blades go under the prefix alone; only the pseudoscalar is left
* `C62_wedgeless_refuted`: without wedges e_1^e_2 and the vector e_12 are printed alike
* `C63_factors_refuted`: FINDING: a multilinear function with one non-zero component is not listed. expr.args is then the list of factors of that component, so the loop over the "terms" runs over the factors: the listing has one entry, with no slot symbol, whose coefficient is the number of factors. T(a, b) = 5 a_x b_y is listed (and printed in LaTeX) as 3.
* `C63_single_refuted`: FINDING: the same on an example: T(a, b) = 5 a_x b_y is listed as 3.
* `C63_trailing_refuted`: FINDING: four components, two to a line: the environment ends with a line break and an empty line follows.
* `C63_zero_refuted`: FINDING: for the zero function the loop does not run and coef is not bound.
* `C64_oblique_refuted`: finding: lt.py Mlt.cderiv -- in an oblique frame the covariant derivative of a scalar field is not its directional derivative: for the field x in the plane with e0.e0 = 1, e0.e1 = 1, e1.e1 = 2 the value of cderiv() on e0 is -1, where (e0 . grad) x = 1
* `C66_integer_grade_refuted`: finding: several names with an integer grade raise, although each name alone is accepted
* `C66_scalar_keyword_refuted`: finding: with a scalar value instead of a name any keyword is accepted without a word
* `C67_capital_refuted`: finding: Theta, Beta, Zeta and Epsilon are printed with a small letter inside, the other capital letters and lambda as words
* `C67_mixed_refuted`: finding: when a letter is escaped at one place of a name, its other places stay unescaped
* `C67_ten_refuted`: finding: the tenth letter of the alphabet in one name is printed as the first one followed by 0
* `C68_contraction_refuted`: finding: X < c with X in base representation of a non-orthogonal algebra uses the coefficient of 1 of that representation instead of the scalar part (mv.py:862-863 calls scalar(), which does not convert). Here X = e0*e1 with e0.e1 = 3 and X < 1 is 0.
* `C69_at_refuted`: finding: in a notebook an @ tears the equation into two pieces that are no equations
* `C69_import_refuted`: finding: the module has its own copy of Format_cnt. When printer.Format() was called before the import, the copy starts at 1 and gFormat() never switches LaTeX on
* `C69_percent_refuted`: finding: the strings are used as a format: a % at the end of a string raises, %s raises, and %% is shown as %
* `C69_plain_text_refuted`: finding: without gFormat(), a \\ in a string prints LaTeX code in plain text
* `C69_remove_refuted`: finding: the auxiliary files are not removed, their names are given with a blank at the end; the tex file is removed; the redirection is given to pdflatex as an argument
* `C70_call_refuted`: finding: the name is used as a format: a function whose name contains % cannot be printed (printer.py:706-710)
* `C70_fold_refuted`: finding: with the setting fold_frac_powers a sum is raised without brackets: (x + y)**(2/3) is printed as x + y^{2/3} (printer.py:546-550)
* `C70_scripts_refuted`: finding: a base whose name contains "cdot" is raised without brackets even if it has a superscript of its own, which LaTeX rejects (printer.py:521-525)
* `C71_row_refuted`: finding: for row vectors the loops run over one entry only: the mean is taken to be the first entry, and only the first entry is reduced by it (mv.py:2051-2063)
* `C72_refl_formula_refuted`: finding: the sign in the documentation of refl, (-1)^(s(r+1)), is not the one of the code, (-1)^(r(s+1)): a vector in a plane (s = 2, r = 1) is its own reflection, the documented formula gives its negative
* `C74_rank0_refuted`: finding: lt.py Mlt.comps -- a multilinear function without arguments has one component, but comps() raises IndexError (i_index[-1] of the empty tuple)
* `C75_oblique_refuted`: finding: lt.py Mlt.__mul__, Mlt.__add__ -- in an oblique frame a multiple of a tensor given by a function is not the multiple of its values: with f(x) = e0 | x, T(e0) is 1 and (1*T)(e0) is 7
* `C76_missing_refuted`: finding: a transformation made from a dictionary that lacks a basis vector prints the image 0 for it, although the basis vector is its own image
* `C77_orthogonal_refuted`: finding: metric.py Metric.g_inv -- for an orthogonal metric g_inv raises TypeError, as the matrix g is called like a function (self.g(i, i)); so do the Christoffel symbols of the second kind
* `C78_python310_refuted`: finding: utils.py flatten -- from Python 3.10 on there is no collections.Iterable: flatten raises AttributeError for every list that is not empty
* `C78_values_refuted`: finding: utils.py flatten -- the test for an iterable looks at the list instead of its element: a value that is neither string nor list, anywhere inside, makes flatten raise TypeError instead of being appended
* `C79_last_title_refuted`: finding: printer.py oprint -- a title at the end without a value is dropped without a word: oprint('title') prints nothing (the documentation asks for None as the value)
* `C79_titles_refuted`: finding: printer.py oprint -- a string as the first of several values to be printed is taken for a title: in oprint('a', x, y) the object y is taken for a title, which is dropped; with a fourth argument it raises TypeError

Seen while reading, not proved:

* `Metric.g_inv` calls `self.g(i, i)` in its orthogonal branch.
* `Sm` with an `Mv` argument refers to an unbound `g`; `Ga.preset` calls a missing
  `set_simp`; `grad_sqr` refers to a missing `DopFop`; `base_expansion_dict` calls
  itself when debugging.
* `Ga('')` raises; the length of a list given as metric is not checked.
* `A == B` for objects of two algebras raises instead of returning `False`.
* The docstring of `refl` has the wrong sign.
* `inv()` of a null element returns an object with SymPy's `zoo`.
* `Sm` with a multivector as map (ga.py:2277-2291) never assigns the local `g` and raises.
* `cross(0, v)` raises.
* A repeated basis name breaks the two-way table of basis names.
* `Lt.adj` uses the metric matrix as given, while the products use its upper
  triangle; C30 therefore assumes a symmetric matrix.
* `if not mat_rep.is_versor` in `Lt.__init__` tests a bound method and never fires.
* `Mv.Grad` (mv.py:1203-1216) calls `self.Ga.Diff`, which no class defines, so it
  always raises.
* `make_grad(A)` for a multivector `A` cannot be applied to a field that is not a
  scalar when the basis vectors depend on position (C60_connected_refuted).
* `Mv.collect(deep=True)` calls `sympy.collect` with one argument (mv.py:915) and raises
  for every multivector (C61_collect_deep_refuted).
* `Mv.subs` replaces symbols in the coefficients only; when the metric contains the
  symbol the result no longer agrees with the product of the substituted operands
  (C61_subs_metric_refuted).
* `Ga.bases_dict` builds its keys from the digits of the printed blade. Names without
  digits all get the same key and only the pseudoscalar is returned
  (C62_no_digits_refuted); with twelve numbered vectors `e_12` and `e_1^e_2` collide
  (C62_dict_refuted).
