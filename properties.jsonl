{"id": "C01", "title": "Arf arithmetic is correctly rounded", "statement": "Evaluating an Arf expression (x+y, x-y, x*y, x/y)(prec, round) yields exactly the real result rounded to prec bits in the requested direction (division by zero gives no number); with ARF_PREC_EXACT, +, -, * and negation and absolute value are exact.", "quantifier": "all finite Arf operands of any mantissa size and exponent, every prec >= 1, every rounding mode", "why_tests_cant": "mantissas and exponents are unbounded; ties and carries into the next binade occur only for special bit patterns", "anchors": ["libexactreal/exact-real/arf.hpp: operator+,-,*,/", "libexactreal/src/arf.cc", "libexactreal/exact-real/yap/arf.hpp"]}
{"id": "C02", "title": "Arf structure: mantissa, exponent, floor, ceil, logb, shifts", "statement": "For a finite Arf x: x == x.mantissa() * 2^x.exponent() with odd mantissa (or 0); floor()/ceil() return the integers floor(x), ceil(x); logb() is the k with 2^k <= |x| < 2^(k+1); x<<n and x>>n are exactly x*2^n and x*2^-n; comparisons compare the numbers; the conversion to double is the nearest double, ties to even.", "quantifier": "all finite Arf values and all shift amounts", "why_tests_cant": "unbounded mantissas and exponents, negative values and boundaries at powers of two", "anchors": ["libexactreal/src/arf.cc: floor, ceil, mantissa, exponent, logb, operator<<=, operator>>="]}
{"id": "C03", "title": "Arb comparisons are sound and complete", "statement": "For balls x, y: (x < y) is true only if every point of x is below every point of y, false only if every point of x is >= every point of y, and undecided exactly when neither holds; likewise <=, >, >=, ==, !=.", "quantifier": "all pairs of balls (any midpoint, any radius including 0 and infinity)", "why_tests_cant": "the interesting cases are touching balls and infinite radii in an infinite domain", "anchors": ["libexactreal/src/arb.cc: operator<, operator>, operator<=, operator>=, operator==, operator!="]}
{"id": "C04", "title": "Arb comparisons with rationals are sound", "statement": "x < q, x > q, x <= q, x >= q, x == q for a ball x and a rational q give a definite answer only if that answer is right for every point in the ball (for != see C56).", "quantifier": "all balls and all rationals", "why_tests_cant": "rationals with arbitrary denominators, touching endpoints", "anchors": ["libexactreal/src/arb.cc: operator<(Arb, mpq_class) ... operator!=(Arb, mpq_class)"]}
{"id": "C05", "title": "Arb to interval conversion encloses the ball", "statement": "Converting an Arb to a pair of Arf (lower, upper) yields lower <= every point of the ball <= upper. In the other direction Arb(pair, prec) contains the interval, and is exactly the interval if nothing has to be rounded.", "quantifier": "all balls with finite radius whose relative accuracy is at least two bits, or whose radius is 0 (otherwise the precision that is passed to FLINT is not positive)", "why_tests_cant": "outward rounding must hold for every midpoint/radius pair", "anchors": ["libexactreal/src/arb.cc: operator std::pair<Arf, Arf>"]}
{"id": "C06", "title": "RealNumber::arf(prec) has relative accuracy prec (products: prec - 1)", "statement": "x.arf(prec) differs from the real number x by at most 2^(k-prec), where 2^k is the power of two at the leading bit of the returned approximation, for rational and random numbers; for products by at most 2^(k-(prec-1)). For rational numbers it is the nearest number with prec bits; it is 0 exactly for the number 0. It always returns.", "quantifier": "all real numbers of every kind (rational, random, constrained random, products of any degree) and all prec >= 1", "why_tests_cant": "infinitely many digit streams, denominators, degrees and precisions", "anchors": ["libexactreal/exact-real/real_number.hpp: arf", "libexactreal/src/rational_real_number.cc: arf_", "libexactreal/src/random_real_number.cc: arf_", "libexactreal/src/constrained_random_real_number.cc: arf_", "libexactreal/src/real_number_product.cc: arf_"]}
{"id": "C07", "title": "RealNumber::arb/refine: accuracy, and distance from the number", "statement": "x.arb(prec) has relative accuracy (arb_rel_accuracy_bits) exactly prec for x other than the rational number 0 (whose ball is 0 +- 2^(-2-prec)), and x is within two radii of its midpoint (four radii for products); x.refine(ball, prec) leaves a ball that is already accurate enough untouched.", "quantifier": "all real numbers and all prec >= 1", "why_tests_cant": "a violation needs a specific digit pattern at the rounding position for a given precision", "anchors": ["libexactreal/exact-real/real_number.hpp: arb, refine", "libexactreal/src/real_number.cc: refine, arb"]}
{"id": "C08", "title": "RealNumber::cmp(ball): answers other than 0", "statement": "For rational and random numbers x.cmp(ball) returns -1 only if x is at most every point of the ball, and 1 only if x is above every point of the ball.", "quantifier": "all rational and (constrained) random real numbers and all balls for which the interval is defined (C05)", "why_tests_cant": "the answer depends on digits at a precision chosen from the ball", "anchors": ["libexactreal/exact-real/real_number.hpp: cmp", "libexactreal/src/real_number.cc: cmp"]}
{"id": "C09", "title": "static_cast<double>(RealNumber) is faithfully rounded", "statement": "The conversion of a rational or random number to double returns one of the two doubles around it; for all numbers it returns the closest double to a number within a relative distance of 2^-53.", "quantifier": "all real numbers of every kind, including results that are subnormal (overflow is not modelled)", "why_tests_cant": "double rounding errors need a 1 after a run of zeros beyond bit 54", "anchors": ["libexactreal/exact-real/real_number.hpp: operator double", "libexactreal/src/real_number.cc: operator double, ARF_DOUBLE_PRECISION"]}
{"id": "C10", "title": "Cached approximations are independent of history", "statement": "arf(prec) returns the same value no matter which precisions were asked for before, how often, and whether the cache was emptied in between; the cache of unusual precisions never holds more than its limit.", "quantifier": "all sequences of arf() calls with arbitrary precisions (long, including < 1)", "why_tests_cant": "a history property: eviction only happens after more than a hundred distinct precisions", "anchors": ["libexactreal/src/real_number.cc: RealNumberBase::arf, LARGE_PREC_LIMIT", "libexactreal/src/impl/real_number_base.hpp"]}
{"id": "C11", "title": "RealNumber comparisons terminate, and are right unless the numbers are close", "statement": "x < y between real numbers, and against dyadic floats and rationals, terminates whenever the numbers differ. The answer is right for two rational numbers, for two random numbers, for a rational number and mpq_class (<, >, ==) or Arf (==), and for the sign of any number. In general a wrong answer for rational and random numbers is possible only if the numbers are close: relative distance 1/6 for two numbers, 2^-64 for a number and an mpq_class.", "quantifier": "all real numbers of all kinds and all right hand sides", "why_tests_cant": "depends on infinitely many digits and on when two approximations touch", "anchors": ["libexactreal/src/real_number.cc: operator<, operator>, operator=="]}
{"id": "C12", "title": "RealNumber multiplication is commutative, associative and unital", "statement": "x*y denotes the product of the reals; x*y and y*x are the same object, (x*y)*z and x*(y*z) are the same object, 1*x is x; multiplying a transcendental by a rational other than 1 throws.", "quantifier": "all real numbers (atoms, products of any degree, rationals), all multiplication orders", "why_tests_cant": "unboundedly many factors and interning orders", "anchors": ["libexactreal/src/real_number_product.cc: RealNumber::operator*, Key::persist", "libexactreal/src/rational_real_number.cc: operator*"]}
{"id": "C13", "title": "RealNumber division is exact division of monomials", "statement": "x / y returns z only if z*y == x, and nullopt only if there is no such z; x/x is 1; division by a rational other than 1 throws (unless x and y are the same). On objects: if the quotient exists already as an object, that object is returned.", "quantifier": "all pairs of real numbers", "why_tests_cant": "all monomials of every degree", "anchors": ["libexactreal/src/real_number.cc: operator/", "libexactreal/src/real_number_product.cc: operator/"]}
{"id": "C14", "title": "deglex is a strict total order compatible with multiplication", "statement": "deglex is irreflexive, transitive and total on distinct generators (at most one rational), and x deglex y implies x*z deglex y*z; it is the order by total degree and then by exponents, with rationals first.", "quantifier": "all generators, triples of generators", "why_tests_cant": "order axioms over an infinite set", "anchors": ["libexactreal/src/real_number_product.cc: deglex"]}
{"id": "C15", "title": "Product interning finds the existing product", "statement": "The lookup key (x, y) of a not yet computed product and the key of the computed product compare equal exactly when they denote the same monomial, and equal keys have equal hashes; the computed exponent vector is sorted and has no zero exponents.", "quantifier": "all pairs of real numbers and all exponent vectors, hash arithmetic modulo 2^64", "why_tests_cant": "hash/equality consistency must hold for every key; a violation produces duplicate objects only under some interning orders", "anchors": ["libexactreal/src/real_number_product.cc: Key::Hash, Key::operator==, Key::persist"]}
{"id": "C16", "title": "Unique factories: equal keys give the same live object", "statement": "As long as some user holds an object, asking the factory for an equal key returns that very object; two live objects never share a key; pointer equality coincides with key equality.", "quantifier": "all histories of get, copy and release, including the kept-alive window", "why_tests_cant": "histories are unbounded; the failure needs release/re-creation patterns", "anchors": ["libexactreal/src/module.cc: factory", "libexactreal/src/rational_real_number.cc", "libexactreal/src/random_real_number.cc", "libexactreal/src/real_number_product.cc"]}
{"id": "C17", "title": "Real number ids are unique under concurrency", "statement": "No two RealNumber objects created in a process (before the 64 bit counter wraps) have the same id, whatever the interleaving of creating threads.", "quantifier": "all numbers of threads and all interleavings", "why_tests_cant": "schedules", "anchors": ["libexactreal/src/real_number_base.cc: RealNumberBase()"]}
{"id": "C18", "title": "Module::make is canonical", "statement": "Module::make of two lists with the same generators (in any order) gives the same module; its basis is a deglex-sorted permutation of the input.", "quantifier": "all lists of generators and all permutations", "why_tests_cant": "all permutations of arbitrarily long bases", "anchors": ["libexactreal/src/module.cc: make"]}
{"id": "C19", "title": "Module::make rejects bases that are obviously dependent", "statement": "Module::make throws exactly if a generator is repeated or two generators are rational; otherwise it succeeds.", "quantifier": "all lists of generators", "why_tests_cant": "unbounded lists", "anchors": ["libexactreal/src/module.cc: check, make"]}
{"id": "C20", "title": "Module::span is the sum of modules", "statement": "span(M, N) has exactly the generators of M and N (trivial modules contribute nothing, also not their field of definition); over the same ring it is independent of the order of the arguments, idempotent and associative (also in when it throws: exactly if there are two different rational generators); both M and N are submodules of it and it is contained in any other module that contains both. Over different rings its ring is the compositum and its generators do not depend on the order.", "quantifier": "all pairs and triples of modules", "why_tests_cant": "unbounded bases", "anchors": ["libexactreal/src/module.cc: span, submodule"]}
{"id": "C21", "title": "Element::promote preserves the value", "statement": "x.promote(M) succeeds and denotes the same element for any module M that contains the generators x uses and whose ring contains the coefficients; promoting to x's own module or up and back changes nothing.", "quantifier": "all elements and target modules", "why_tests_cant": "merge over arbitrary bases; dropping a coefficient needs a specific relative position", "anchors": ["libexactreal/src/element.cc: promote"]}
{"id": "C22", "title": "Element addition", "statement": "x + y, x += y (also with x and y from different modules, rationals, integers, real numbers) denotes the sum, over the union of the generators, and is defined whenever the modules can be combined; += with itself doubles.", "quantifier": "all pairs of elements, all valuations of the random reals", "why_tests_cant": "arbitrary bases and coefficients", "anchors": ["libexactreal/src/element.cc: operator+="]}
{"id": "C23", "title": "Element negation and subtraction", "statement": "-x denotes the negative; x - y denotes the difference; x - x == 0.", "quantifier": "all pairs of elements", "why_tests_cant": "arbitrary bases and coefficients", "anchors": ["libexactreal/src/element.cc: operator-=, operator-"]}
{"id": "C24", "title": "Element multiplication", "statement": "x * y denotes the product; its module is generated by products of generators and is valid (distinct generators); the product with zero is zero; it is defined whenever products of generators and a common ring exist, in particular for modules whose rational generator, if any, is 1. x * r for a real number r denotes the product.", "quantifier": "all pairs of elements, all valuations", "why_tests_cant": "arbitrary bases, collisions of generator products, coefficients that cancel", "anchors": ["libexactreal/src/element.cc: operator*=(Element), operator*=(RealNumber)"]}
{"id": "C25", "title": "Elements satisfy the laws of a commutative ring", "statement": "+, - and * on elements satisfy the commutative ring axioms up to ==, including distributivity: always defined for modules over the same ring whose rational generator, if any, is 1; in general whenever both sides and their comparison are defined.", "quantifier": "all triples of elements from possibly different modules", "why_tests_cant": "algebraic laws over infinite carrier", "anchors": ["libexactreal/src/element.cc: operator+=, operator-=, operator*="]}
{"id": "C26", "title": "== on elements decides equality in the ring", "statement": "x == y holds iff x and y take the same value for every choice of values for the random generators (the rational generator, if any, is not 0); == is an equivalence relation; the truth value of x is x != 0.", "quantifier": "all pairs of elements, all valuations", "why_tests_cant": "soundness and completeness over all valuations", "anchors": ["libexactreal/src/element.cc: operator==, operator bool"]}
{"id": "C27", "title": "Conversions of elements to rationals and integers", "statement": "static_cast<optional<mpq_class>>(x) is q exactly if x equals the rational q (for every valuation), and nullopt if x is not a rational constant; same for mpz_class and integers; x == q, x == n agree with it.", "quantifier": "all elements", "why_tests_cant": "all coefficient vectors, position of the rational generator, all rings", "anchors": ["libexactreal/src/element.cc: operator std::optional<mpq_class>, operator std::optional<mpz_class>, operator==(mpq)"]}
{"id": "C28", "title": "truediv is exact division", "statement": "x.truediv(y) returns z only if z*y == x; if some z with coefficients in the ring satisfies z*y == x then truediv finds it; y == 0 throws; it always terminates.", "quantifier": "all pairs of elements over the same ring whose modules have no rational generator other than 1", "why_tests_cant": "termination and completeness of multivariate division over arbitrary supports", "anchors": ["libexactreal/src/element.cc: truediv"]}
{"id": "C29", "title": "floordiv is floor of the quotient", "statement": "x.floordiv(y) returns floor(x/y) for y != 0 of either sign, provided that the balls of generators and coefficients contain them; integer quotients are found exactly, without approximations; it returns if the generators are linearly independent.", "quantifier": "all pairs of elements with y != 0, all valuations, all correct families of balls (for the library's own balls of random numbers see C67, C76)", "why_tests_cant": "negative divisors, exact quotients, quotients near integers", "anchors": ["libexactreal/src/element.cc: floordiv"]}
{"id": "C30", "title": "unit() decides invertibility", "statement": "x.unit() is true iff x has a multiplicative inverse among elements over the same ring of coefficients.", "quantifier": "all elements whose module has no rational generator other than 1 (for others see C70)", "why_tests_cant": "arbitrary rational generators and coefficients", "anchors": ["libexactreal/exact-real/element.hpp: unit", "libexactreal/src/element.cc: unit"]}
{"id": "C31", "title": "floor() and ceil()", "statement": "x.floor() and x.ceil() are the integers floor(x) and ceil(x), provided that the balls of generators and coefficients contain them; for integers no approximation is needed; they return if 1 and the generators are linearly independent.", "quantifier": "all elements, all valuations, all correct families of balls (for the library's own balls of random numbers see C67, C76)", "why_tests_cant": "values arbitrarily close to integers", "anchors": ["libexactreal/src/element.cc: floor, ceil", "libexactreal/src/rational_field.cc: floor"]}
{"id": "C32", "title": "Order of elements", "statement": "x < y, x > y, x == y between elements (and elements and integers, rationals, and real numbers among the generators): exactly one holds, and it is the one that holds for the denoted reals, provided that the balls of generators and coefficients contain them; the comparison terminates if the generators are linearly independent.", "quantifier": "all pairs of elements, all valuations with linearly independent generators, all correct families of balls (for the library's own balls of random numbers see C66, C76)", "why_tests_cant": "depends on approximations of arbitrarily high precision", "anchors": ["libexactreal/src/element.cc: lt, gt"]}
{"id": "C33", "title": "simplify is minimal and value preserving", "statement": "x.simplify() equals x, and its module consists of exactly the generators with nonzero coefficient; the module of x+x.simplify() is x's module.", "quantifier": "all elements", "why_tests_cant": "arbitrary coefficient patterns", "anchors": ["libexactreal/src/element.cc: simplify"]}
{"id": "C34", "title": "Scalar multiplication and division", "statement": "x *= s multiplies the denoted value by s (s integer, rational, ring element), x /= s divides it; there is a result whenever it is representable in the module; division by 0 throws and leaves x unchanged if the module has a generator (see C71 for other failures).", "quantifier": "all elements, all scalars, all coefficient positions at which division fails", "why_tests_cant": "exception safety must hold for a failure at any coefficient index", "anchors": ["libexactreal/src/element.cc: operator*=, operator/=", "libexactreal/src/integer_ring.cc: idiv, imul"]}
{"id": "C35", "title": "Coefficients and generators roundtrip", "statement": "An element built from coefficients denotes sum coefficient * generator, and is defined iff their number is right; coefficients() and operator[] return them; an out of range index of operator[] throws; gen(i) has a single 1 at i, for valid indices (the code does not check the upper bound); the coefficients of an element are unique.", "quantifier": "all modules, coefficient vectors, indices", "why_tests_cant": "all lengths", "anchors": ["libexactreal/src/element.cc: Element(module, coefficients), operator[], coefficients", "libexactreal/src/module.cc: gen"]}
{"id": "C36", "title": "rationalCoefficients determines the element", "statement": "rationalCoefficients() has length rank*degree, and two elements of the same module have equal rationalCoefficients iff they are equal; the vector is the concatenation of the coordinates of the coefficients in the field's power basis.", "quantifier": "all elements over each supported ring", "why_tests_cant": "all degrees and coefficient vectors; padding of short polynomials", "anchors": ["libexactreal/src/element.cc: rationalCoefficients"]}
{"id": "C37", "title": "Changing the ring of coefficients preserves values", "statement": "Constructing an element over the rationals or a number field from an element over the integers or rationals preserves its value and commutes with +, -, *, ==.", "quantifier": "all elements", "why_tests_cant": "algebraic law over infinite carrier", "anchors": ["libexactreal/src/element.cc: Element(const Element<IntegerRing>&), Element(const Element<RationalField>&)"]}
{"id": "C38", "title": "Seeds are distinct", "statement": "The first 2^32 default constructed Seeds of a process are pairwise distinct, and random numbers with different seeds are different real numbers.", "quantifier": "all numbers of seeds drawn, all pairs of 32 bit seeds", "why_tests_cant": "wrap around after 2^32 draws", "anchors": ["libexactreal/src/seed.cc", "libexactreal/exact-real/seed.hpp"]}
{"id": "C39", "title": "Seeds are distinct under concurrency", "statement": "Default constructed Seeds are distinct whatever the interleaving of threads creating them.", "quantifier": "all interleavings", "why_tests_cant": "schedules", "anchors": ["libexactreal/src/seed.cc"]}
{"id": "C40", "title": "Serialization roundtrip in one process", "statement": "Saving elements or a real number and loading them later in the same process, while their generators are alive, gives back equal objects with the same modules and generators; loading changes no number that exists.", "quantifier": "all elements, modules, real numbers, also repeated generators in one archive", "why_tests_cant": "arbitrary object graphs", "anchors": ["libexactreal/exact-real/cereal.hpp", "libexactreal/src/real_number_product.cc: save, load"]}
{"id": "C41", "title": "Serialization roundtrip between processes", "statement": "An element saved in one process and loaded in another denotes the same value: the coefficient of each generator is preserved.", "quantifier": "all elements, all orders in which the loading process has created its generators", "why_tests_cant": "depends on the relative order of ids in two processes", "anchors": ["libexactreal/exact-real/cereal.hpp: Element load/save", "libexactreal/src/module.cc: make"]}
{"id": "C42", "title": "random(a, b) is in range", "statement": "RealNumber::random(lower, upper) lies in (lower, upper]; it throws exactly if lower >= upper; the number has approximations of every precision, which are rounded numbers of the interval.", "quantifier": "all pairs of dyadic bounds, all seeds, all digit streams", "why_tests_cant": "all streams and bounds, alignment of exponents", "anchors": ["libexactreal/src/constrained_random_real_number.cc: random(Arf, Arf, Seed)"]}
{"id": "C43", "title": "random(x) rounds to x", "statement": "RealNumber::random(double x) produces a real number whose closest double is x, and whose conversion to double returns x. (For x = DBL_MAX an infinity is passed on and nothing is specified: C43_largest_unspecified.)", "quantifier": "all finite doubles other than -DBL_MAX and DBL_MAX, all seeds, all digit streams", "why_tests_cant": "2^64 doubles, boundaries at powers of two", "anchors": ["libexactreal/src/constrained_random_real_number.cc: random(double, Seed)"]}
{"id": "C44", "title": "static_cast<double>(Element) is the closest double", "statement": "Converting an element to double gives the nearest double, ties to even, provided that the balls of generators and coefficients contain them; it returns if 1 and the generators are linearly independent.", "quantifier": "all elements in the range of normal doubles (for irrational elements also subnormal), all correct families of balls (for the library's own balls see C68, C76)", "why_tests_cant": "digits arbitrarily far out", "anchors": ["libexactreal/src/element.cc: operator double"]}
{"id": "C45", "title": "hash is consistent with ==", "statement": "x == y implies hash(x) == hash(y), for elements (also from different modules) provided that the balls of generators and coefficients contain them, and for Arf.", "quantifier": "all pairs of elements, all pairs of finite Arf, all correct families of balls (for the library's own balls see C69)", "why_tests_cant": "equal elements with different representations", "anchors": ["libexactreal/src/element.cc: std::hash", "libexactreal/src/real_number.cc: hash", "libexactreal/src/module.cc: hash"]}
{"id": "C46", "title": "Native integers convert without loss", "statement": "Any native signed or unsigned integer type used with Arb, Arf and Element (construction, comparisons, *=, /=) takes part with its exact value, on every platform. (== with long long goes through a string: in a C++ locale that groups digits it throws, C46_element_equal_locale_throws.)", "quantifier": "all values of all native integer types, all widths of the types and of FLINT's words, the classic C++ locale", "why_tests_cant": "boundaries of each type", "anchors": ["libexactreal/src/arb.cc: to_supported_integer", "libexactreal/exact-real/arb.hpp", "libexactreal/exact-real/arf.hpp"]}
{"id": "C47", "title": "Module::one() is one", "statement": "M.one() denotes 1 whenever it returns; without a rational generator it throws, rightly; with a positive rational generator it returns if 1 is in the module.", "quantifier": "all modules over each supported ring", "why_tests_cant": "arbitrary rational generators, negative and non-integral", "anchors": ["libexactreal/src/module.cc: one"]}
{"id": "C48", "title": "Expression evaluation is alias safe", "statement": "x = (expression mentioning x)(prec, round) and x op= expression evaluate as if all operands had been read before x is written, at any nesting depth; the innermost prec/round annotation applies to each operation.", "quantifier": "all expression trees and all aliasing patterns", "why_tests_cant": "all expression shapes", "anchors": ["libexactreal/exact-real/yap/arf.hpp", "libexactreal/exact-real/yap/arb.hpp", "libexactreal/exact-real/yap/assign_transformation.hpp", "libexactreal/exact-real/yap/params_transformation.hpp"]}
{"id": "C49", "title": "Rings of coefficients: floor, unit, division", "statement": "IntegerRing and NumberField::floor are the floor, RationalField::floor is for non-negative numbers and integers; division by zero throws, other divisions give the quotient; unit() decides invertibility.", "quantifier": "all coefficients of each supported ring", "why_tests_cant": "negative non-integers", "anchors": ["libexactreal/src/rational_field.cc"]}
{"id": "C50", "title": "Compositum and coercion of number fields", "statement": "The compositum of two rings contains both if it is returned at all; coercion preserves the value; the compositum in the other order contains the same numbers, or throws, too. Integers, rationals and number fields of any degree satisfy the specification of rings used in the other properties.", "quantifier": "all pairs of fields of the supported shapes", "why_tests_cant": "all fields", "anchors": ["libexactreal/src/number_field.cc: compositum, coerce"]}
{"id": "C51", "title": "Arb arithmetic encloses", "statement": "(x op y)(prec) for balls encloses every p op q with p in x and q in y (op one of +, -, *, /), and so does negation; for exact operands + and * are exact when the exact result fits into prec bits.", "quantifier": "all pairs of balls, all precisions", "why_tests_cant": "infinite domain", "anchors": ["libexactreal/exact-real/arb.hpp", "libexactreal/src/arb.cc"]}
{"id": "C52", "title": "Element::arb(accuracy) encloses the element", "statement": "x.arb(accuracy) contains the real number denoted by x, provided that the balls of generators and coefficients contain them; its radius is at most |midpoint| * 2^-accuracy; it returns unless a nonzero element has value 0.", "quantifier": "all elements, all accuracies >= 2, all valuations, all correct families of balls (for the library's own balls see C65, C76)", "why_tests_cant": "sum of approximations at increasing precision with arbitrary cancellation", "anchors": ["libexactreal/src/element.cc: arb"]}
{"id": "C53", "title": "Element == RealNumber", "statement": "x == r for a real number r: if it returns, the answer is whether the element x denotes r, and agrees with x == y for an element y that denotes r; it throws exactly if x is not 0 and r is not among the generators of x.", "quantifier": "all elements and real numbers", "why_tests_cant": "unrelated generators", "anchors": ["libexactreal/src/element.cc: operator==(RealNumber)"]}
{"id": "C54", "title": "random reals: the n-bit prefix does not depend on the precision asked for", "statement": "For p <= q, arf(p) of a random real number is the truncation of arf(q) to fewer digits; the digits depend on the seed only; the value lies in (0, 1].", "quantifier": "all seeds, digit streams, pairs of precisions", "why_tests_cant": "infinite streams", "anchors": ["libexactreal/src/random_real_number.cc: arf_"]}
{"id": "C55", "title": "Arb(q, prec) encloses the rational", "statement": "The ball constructed from a rational q with precision prec contains q; if q fits into prec bits, q is its only point.", "quantifier": "all rationals, all prec >= 1", "why_tests_cant": "all denominators", "anchors": ["libexactreal/src/arb.cc: Arb(mpq_class, prec)"]}
{"id": "C56", "title": "Arb != rational is sound", "statement": "x != q for a ball x and a rational q gives a definite answer only if that answer is right for every point in the ball.", "quantifier": "all balls and all rationals", "why_tests_cant": "all denominators", "anchors": ["libexactreal/src/arb.cc: operator!=(Arb, mpq_class)"]}
{"id": "C57", "title": "RealNumber::arf(prec) of products has relative accuracy prec", "statement": "x.arf(prec) of a product of random numbers has the relative accuracy prec.", "quantifier": "all products and all prec >= 2", "why_tests_cant": "needs a product whose errors add up unfavourably", "anchors": ["libexactreal/src/real_number_product.cc: arf_"]}
{"id": "C58", "title": "RealNumber::arb(prec) contains the number", "statement": "x.arb(prec) contains the real number x.", "quantifier": "all real numbers and all prec >= 1", "why_tests_cant": "a violation needs a specific digit pattern at the rounding position for a given precision", "anchors": ["libexactreal/src/real_number.cc: refine, arb"]}
{"id": "C59", "title": "RealNumber::cmp(ball) classifies the number against the ball", "statement": "x.cmp(ball) returns -1 only if x is below the ball, 1 only if x is above it, 0 only if x is in it.", "quantifier": "all real numbers and all balls with finite radius", "why_tests_cant": "the answer depends on digits at a precision chosen from the ball", "anchors": ["libexactreal/src/real_number.cc: cmp"]}
{"id": "C60", "title": "static_cast<double>(RealNumber) is the closest double", "statement": "The conversion to double returns the nearest double, ties to even.", "quantifier": "all real numbers of every kind", "why_tests_cant": "double rounding errors need a 1 after a run of zeros beyond bit 54", "anchors": ["libexactreal/src/real_number.cc: operator double, ARF_DOUBLE_PRECISION"]}
{"id": "C61", "title": "RealNumber comparisons are right", "statement": "x < y, x > y between real numbers, and against integers, rationals and dyadic floats, return what the order of the real numbers says.", "quantifier": "all real numbers of all kinds and all right hand sides", "why_tests_cant": "depends on infinitely many digits and on when two approximations touch", "anchors": ["libexactreal/src/real_number.cc: operator<, operator>"]}
{"id": "C62", "title": "Module::span over different fields does not depend on the order", "statement": "span(M, N) == span(N, M) for modules over different number fields.", "quantifier": "all pairs of modules", "why_tests_cant": "all fields", "anchors": ["libexactreal/src/module.cc: span", "libexactreal/src/number_field.cc: compositum"]}
{"id": "C63", "title": "Element::promote reports what does not fit", "statement": "Promoting an element to a module that does not contain it is reported instead of silently changing the element.", "quantifier": "all elements and target modules", "why_tests_cant": "dropping a coefficient needs a specific relative position of generators", "anchors": ["libexactreal/src/element.cc: promote"]}
{"id": "C64", "title": "truediv with other rational generators", "statement": "x.truediv(y) finds the quotient, if there is one, also in modules with a rational generator other than 1.", "quantifier": "all pairs of elements", "why_tests_cant": "all generators", "anchors": ["libexactreal/src/element.cc: truediv"]}
{"id": "C65", "title": "Element::arb with the library's own balls", "statement": "With the balls the library computes for random numbers and products, x.arb(accuracy) has radius at most |midpoint| * 2^-accuracy and the denoted number is within four radii of the midpoint; it returns unless a nonzero element has value 0.", "quantifier": "all elements, all accuracies >= 2, all digit streams", "why_tests_cant": "sum of approximations at increasing precision with arbitrary cancellation", "anchors": ["libexactreal/src/element.cc: arb", "libexactreal/src/real_number.cc: refine"]}
{"id": "C66", "title": "Order of elements with the library's own balls", "statement": "With the balls the library computes, x < y (and x < q, x > q for rationals q) is answered rightly whenever the difference is more than 3 * 2^-63 * (|x| + |y|); there is an answer whenever the values differ.", "quantifier": "all pairs of elements, all digit streams", "why_tests_cant": "depends on approximations of arbitrarily high precision", "anchors": ["libexactreal/src/element.cc: lt, gt"]}
{"id": "C67", "title": "floor, ceil and floordiv with the library's own balls", "statement": "With the balls the library computes, x.floor() and x.ceil() are floor and ceil of a number within a relative distance of 3 * 2^-63 of x, and x.floordiv(y) is the floor of the quotient of such numbers; they return if x (x/y) is not an integer.", "quantifier": "all elements, all digit streams", "why_tests_cant": "values arbitrarily close to integers", "anchors": ["libexactreal/src/element.cc: floor, ceil, floordiv"]}
{"id": "C68", "title": "static_cast<double>(Element) with the library's own balls", "statement": "With the balls the library computes, the conversion of an element that is not rational to double is the closest double to a number within a relative distance of 3 * 2^-54 of x.", "quantifier": "all elements, all digit streams", "why_tests_cant": "digits arbitrarily far out", "anchors": ["libexactreal/src/element.cc: operator double"]}
{"id": "C69", "title": "hash is consistent with == with the library's own balls", "statement": "x == y implies hash(x) == hash(y) for elements, also from different modules.", "quantifier": "all pairs of elements, all digit streams", "why_tests_cant": "equal elements with different representations", "anchors": ["libexactreal/src/element.cc: std::hash"]}
{"id": "C70", "title": "unit() with other rational generators", "statement": "x.unit() decides invertibility also for modules with rational generators other than 1.", "quantifier": "all elements", "why_tests_cant": "arbitrary rational generators and coefficients", "anchors": ["libexactreal/src/element.cc: unit"]}
{"id": "C71", "title": "A failing /= leaves the element unchanged", "statement": "Whenever x /= s throws, x is unchanged; division by 0 always throws.", "quantifier": "all elements, all scalars, all coefficient positions at which division fails", "why_tests_cant": "exception safety must hold for a failure at any coefficient index", "anchors": ["libexactreal/src/element.cc: operator/="]}
{"id": "C72", "title": "Seeds never repeat and give independent numbers", "statement": "All default constructed Seeds of a process are distinct, and random numbers created from them are linearly independent of each other and of 1.", "quantifier": "all numbers of seeds drawn", "why_tests_cant": "wrap around after 2^32 draws, periods of the generator", "anchors": ["libexactreal/src/seed.cc", "libexactreal/src/random_real_number.cc"]}
{"id": "C73", "title": "Module::one() with negative generators", "statement": "M.one() returns whenever 1 is in the module, also for negative rational generators.", "quantifier": "all modules over each supported ring", "why_tests_cant": "arbitrary rational generators", "anchors": ["libexactreal/src/module.cc: one"]}
{"id": "C74", "title": "RationalField::floor is the floor", "statement": "RationalField::floor(x) is floor(x).", "quantifier": "all rationals", "why_tests_cant": "negative non-integers", "anchors": ["libexactreal/src/rational_field.cc: floor"]}
{"id": "C75", "title": "Element == RealNumber is total", "statement": "x == r is defined for all elements x and real numbers r.", "quantifier": "all elements and real numbers", "why_tests_cant": "unrelated generators", "anchors": ["libexactreal/src/element.cc: operator==(RealNumber)"]}
{"id": "C76", "title": "Elements: exact results with the library's own balls", "statement": "With the balls the library computes, Element::arb contains the element, <, > and floor are right, and the conversion to double is the closest double, for all elements (also subnormal).", "quantifier": "all elements, all digit streams", "why_tests_cant": "needs digits at a specific position", "anchors": ["libexactreal/src/element.cc", "libexactreal/src/real_number.cc: refine"]}
{"id": "C77", "title": "Printed elements denote the element", "statement": "operator<< prints an element as a sum of products of coefficients and generators. Read as such it has the value of the element; two elements (of possibly different modules) print the same if and only if they are ==; zero prints as 0, and there is no leading minus sign unless all nonzero coefficients are negative. (As long as generators and coefficients have different spellings.)", "quantifier": "all elements of modules with independent generators, over each ring of coefficients", "why_tests_cant": "the summands go through a std::set ordered by approximations: that no summand gets lost or merged must hold for all sets of generators", "anchors": ["libexactreal/src/element.cc: operator<<"]}
{"id": "C78", "title": "Constants and conversions of balls", "statement": "Arb::zero(), one(), zero_pm_one(), unit_interval(), zero_pm_inf() are exactly the sets they are named after; the midpoint of a ball is a point of it, static_cast<double> is the double closest to the midpoint; is_exact() holds exactly for single points and is_finite() exactly for bounded balls.", "quantifier": "all balls", "why_tests_cant": "all midpoints and radii", "anchors": ["libexactreal/src/arb.cc: zero, one, zero_pm_one, zero_pm_inf, unit_interval, operator Arf, operator double, is_exact, is_finite"]}
{"id": "C79", "title": "Numbers survive being written as text", "statement": "The text that archives hold for integers, rationals, floats (including infinities and NaN) and balls is read back as the same number (as the same set of reals for balls), and different floats have different texts. Arf(text, base, exponent) is the number that the text denotes in that base, times 2^exponent.", "quantifier": "all integers, rationals, floats and balls; all texts, bases 2 to 36 and exponents", "why_tests_cant": "numbers of any size; mpz_class(text) guesses the base from leading zeros", "anchors": ["libexactreal/exact-real/cereal.hpp: save, load, save_minimal, load_minimal", "libexactreal/src/arf.cc: Arf(string, int, long)"]}
{"id": "C80", "title": "All comparison operators agree, in both directions", "statement": "<, >, <=, >=, ==, != between elements, and between an element and an integer, a rational or a generator on either side, return the answer that the order of the real numbers gives (when the balls of the generators are right); so do the six comparisons of rational real numbers, and those of different random real numbers, and those of a real number with a float, integer or rational on either side that is not very close to it (closer: C61); with floats and integers exactly one of <, == and > holds at any distance.", "quantifier": "all elements, integers, rationals and generators; linearly independent generators; all rational and random real numbers", "why_tests_cant": "a swapped operand in a derived operator only shows for some operands; every pair of numbers has to be decided", "anchors": ["libexactreal/exact-real/element.hpp: boost::totally_ordered", "libexactreal/exact-real/real_number.hpp: boost::totally_ordered", "libexactreal/src/element.cc: lt, gt"]}
{"id": "C81", "title": "A real number can be used by several threads", "statement": "The const method arf(prec) may be called on RealNumbers by any number of threads at the same time: each call returns what it returns when it is alone, without waiting for the others, also when it uses other numbers (the factors of a product, the random number within one from an interval) that other threads use, too.", "quantifier": "all real numbers, numbers of threads, precisions and interleavings", "why_tests_cant": "the wrong interleavings need a full cache and a particular order of five steps of two threads", "anchors": ["libexactreal/src/real_number.cc: RealNumberBase::arf", "libexactreal/src/real_number_product.cc: RealNumberProduct::arf_", "libexactreal/src/constrained_random_real_number.cc: ConstrainedRandomRealNumber::arf_", "libexactreal/src/impl/real_number_base.hpp: arf54, arf64, large"]}
{"id": "C82", "title": "Conversions to double follow IEEE-754, also when they overflow", "statement": "static_cast<double> of an Arf (and of the midpoint of a ball) is the binary64 number that IEEE-754 assigns to it: the nearest one, ties to even, subnormal numbers included, and an infinity of the right sign exactly for what is at least halfway from the largest double to 2^1024. For elements that are not subnormal it is that of the exact value; for real numbers that of a number within a relative distance of 2^-53.", "quantifier": "all floats, balls, real numbers and elements, of any size", "why_tests_cant": "ties, overflow and underflow happen at isolated numbers; the element is only known through balls", "anchors": ["libexactreal/src/arf.cc: operator double", "libexactreal/src/arb.cc: operator double", "libexactreal/src/real_number.cc: operator double", "libexactreal/src/element.cc: operator double"]}
{"id": "C83", "title": "Arithmetic with infinities and NaN", "statement": "An Arf may be an infinity or NaN (conversions from double allow it). +, -, *, / then give the limit of the results when the operands tend to the given ones, rounded if it is finite, and NaN exactly if an operand is NaN or there is no limit; negation, abs and shifts act on the extended real line; floor and ceil give an integer exactly for finite numbers; conversion to double and back returns the same double, and equal floats have equal hashes.", "quantifier": "all floats including infinities and NaN, all precisions and rounding modes, all doubles", "why_tests_cant": "all combinations of special values with all finite values of any size", "anchors": ["libexactreal/exact-real/yap/arf_assign_transformation.hpp", "libexactreal/src/arf.cc: Arf(double), operator double, operator-, abs, floor, ceil, operator<<=, hash"]}
{"id": "C84", "title": "Comparisons of floats with infinities and NaN", "statement": "<, >, <=, >=, ==, != of floats decide the order of the extended real line; for NaN the four order comparisons are false, so that < can be used to sort.", "quantifier": "all pairs of floats, including infinities and NaN", "why_tests_cant": "boost::totally_ordered derives <= from <, which is only right for total orders: special values must be considered in all combinations", "anchors": ["libexactreal/src/arf.cc: operator<, operator==", "libexactreal/exact-real/arf.hpp: boost::totally_ordered"]}
{"id": "C85", "title": "Balls with infinite or undefined midpoints", "statement": "Balls may have infinite midpoints or radii, and NaN as midpoint (indeterminate). Comparisons return an answer exactly if it is the same for all points of the two balls, and none if a midpoint is NaN; sums, differences, products and negatives of points are in the balls of the operators; pos_inf, neg_inf, zero_pm_inf, indeterminate are what they are named after; is_finite holds exactly for bounded balls, and the bounds of static_cast<pair<Arf, Arf>> enclose.", "quantifier": "all balls, precisions and roundings of radii", "why_tests_cant": "all combinations of infinite and finite midpoints and radii", "anchors": ["libexactreal/src/arb.cc: comparisons, pos_inf, neg_inf, zero_pm_inf, indeterminate, is_finite, is_exact, operator-, operator pair<Arf, Arf>", "libexactreal/exact-real/yap/arb_assign_transformation.hpp"]}
{"id": "C86", "title": "Printed floats", "statement": "operator<< writes an Arf as its double with six significant digits, correctly rounded, and, for non-integers and large numbers, exactly as =mpe, meaning m*2^e. So the float can be recovered from the text, and different floats have different texts.", "quantifier": "all floats, including infinities and NaN", "why_tests_cant": "rounding to decimal digits, switching to scientific notation and stripping zeros depend on the number; every float has to be recovered", "anchors": ["libexactreal/src/arf.cc: operator<<", "libexactreal/exact-real/arf.hpp: operator<<"]}
{"id": "C87", "title": "Printed real numbers", "statement": "operator<< writes rational numbers exactly, random numbers with their first digits (rounded to six), and random numbers from an interval as the formula initial + inner*2^e that defines them; different numbers can be told apart.", "quantifier": "all real numbers, in particular all seeds", "why_tests_cant": "the digits of all random numbers; the formula has to have the right value for all of them", "anchors": ["libexactreal/src/real_number.cc: operator<<", "libexactreal/src/rational_real_number.cc: operator>>", "libexactreal/src/random_real_number.cc: operator>>", "libexactreal/src/constrained_random_real_number.cc: operator>>"]}
{"id": "C88", "title": "Printed products and modules", "statement": "The text of a product of real numbers determines the texts and exponents of its factors, and the text of a module its ring (as far as it is written) and the texts of its generators, in the same order.", "quantifier": "all products and modules", "why_tests_cant": "separators must not occur in the texts of any generator", "anchors": ["libexactreal/src/real_number_product.cc: operator>>", "libexactreal/src/module.cc: operator<<"]}
{"id": "C89", "title": "Equality and truth of real numbers", "statement": "x == y for real numbers is an equivalence relation and implies that the numbers have the same value; rational numbers are == exactly if they are equal, random numbers exactly if they have the same seed (and come from the same interval), products exactly if they have the same factors with the same exponents, and numbers of different kinds are never ==. As a condition a real number is false exactly if it is zero.", "quantifier": "all real numbers, seeds and generators of random digits", "why_tests_cant": "random numbers and products of any number of factors; a random number must not be zero whatever its digits are", "anchors": ["libexactreal/src/real_number.cc: operator==, operator bool", "libexactreal/exact-real/real_number.hpp: boost::equality_comparable"]}
{"id": "C90", "title": "Python: the ring of exact reals", "statement": "In Python, +, -, * and - of elements of ExactReals(base) return the sum, difference, product and negative; zero(), one(), coerced base ring elements and generators have the right values; == and != decide whether two elements are the same number whatever the random digits are, and never raise. So with == as equality, ExactReals(base) is a commutative ring without zero divisors in which 0 != 1. (This is about elements made from the base ring, from random elements and by arithmetic; rational(q) is q, but as documented the sum of rational(q) and rational(r) raises if q != r.)", "quantifier": "all base rings, all such elements, any number of digits looked at", "why_tests_cant": "ring axioms and the absence of zero divisors are statements about all elements", "anchors": ["pyexactreal/src/pyexactreal/exact_reals.py: _add_, _sub_, _mul_, _neg_, _lmul_, _rmul_, _richcmp_, ExactReals.rational, ExactReals.random_element"]}
{"id": "C91", "title": "Python: division and divisibility", "statement": "x / y returns the quotient if it is in the ring and raises NotRepresentableError exactly if it is not (ValueError from C++ if y is zero); ~x and is_unit agree; x.divides(y) says whether y is a multiple of x in the ring, and gcd returns a greatest common divisor, or raises NotImplementedError exactly if none of the two divides the other.", "quantifier": "all elements of ExactReals(base)", "why_tests_cant": "that no quotient exists cannot be tested", "anchors": ["pyexactreal/src/pyexactreal/exact_reals.py: _div_, __invert__, is_unit, divides, gcd", "pyexactreal/src/pyexactreal/cppyy_exactreal.py: enable_arithmetic"]}
{"id": "C92", "title": "Python: order and integer parts", "statement": "<, <=, ==, !=, >, >= return, and are right; abs, floor, ceil and // return the right element or integer, provided the approximations of the generators contain them and get small, and the generators are independent.", "quantifier": "all elements whose generators are independent, all such approximations", "why_tests_cant": "the comparison has to return for arbitrarily close elements", "anchors": ["pyexactreal/src/pyexactreal/exact_reals.py: _richcmp_, __abs__, floor, ceil, _floordiv_"]}
{"id": "C93", "title": "Python: conversions", "statement": "ZZ(x), QQ(x) and AA(x) return the number x exactly if it is an integer, a rational number, or a constant, whatever the random digits are, and raise TypeError otherwise; is_square over ZZ and QQ says, for such numbers, whether they are squares in the ring and raises NotImplementedError otherwise.", "quantifier": "all elements of ExactReals(base)", "why_tests_cant": "that no other constant or no root exists cannot be tested", "anchors": ["pyexactreal/src/pyexactreal/exact_reals.py: _integer_, _rational_, _algebraic_, is_square"]}
{"id": "C94", "title": "Python: expressions and the garbage collector", "statement": "In Python, arithmetic of Arf and Arb only builds expressions, which are evaluated later by x(prec). Whatever statements run before, whatever variables are deleted or assigned again, and whenever the garbage collector releases objects that no variable reaches: evaluating a variable never reads a released object, and returns what the formula says that was assigned to it (a ball around the right number for Arb, the rounded value for Arf).", "quantifier": "all sequences of assignments, operations, deletions and collector runs, in any order", "why_tests_cant": "the collector may run between any two statements", "anchors": ["pyexactreal/src/pyexactreal/cppyy_exactreal.py: Yap, enable_yap, enable_arithmetic", "libexactreal/exact-real/cppyy.hpp: eval, add, sub, mul, truediv, neg"]}
{"id": "C95", "title": "Programs on elements: assignments, aliases, exceptions", "statement": "In any sequence of definitions, copies, x += y, x -= y, x *= y, x = -y, x *= s, x /= s, simplify() and destructions of variables, where the same variable may be on both sides (x += x, x *= x), each variable contains what calculating with numbers gives; a statement never changes any other variable; two variables never share an object, no object is used after it has been destroyed, and none is leaked. A +=, -= or *= that throws leaves the number in x what it was; over a single ring of coefficients with no rational generator but 1, they never throw.", "quantifier": "all programs of any length, over any variables, all elements, all rings of coefficients", "why_tests_cant": "aliasing, destruction and exceptions can be combined in unboundedly many ways", "anchors": ["libexactreal/src/element.cc: operator+=, operator-=, operator*=, operator/=, operator-, promote, simplify", "libexactreal/exact-real/element.hpp: impl"]}
{"id": "C96", "title": "Floats and balls as objects: copies, moves, memory", "statement": "In any sequence of declarations, copies, moves, assignments, swaps, conversions from mpz_class, computations and destructions of Arf and Arb objects, each object has the value that the program says: a copy does not change with its original (nor with the mpz_class it was made from), self-assignment changes nothing, a moved-from object is 0 after a move construction and has the other value after a move assignment. No memory is read after it has been freed, none is freed twice, no two objects share memory, and none is leaked. This does not depend on which numbers are small enough to be stored in place.", "quantifier": "all programs of any length on any number of objects, all values, all limits for numbers stored in place", "why_tests_cant": "mistakes in ownership only show for certain sequences of statements on numbers that are large enough", "anchors": ["libexactreal/src/arf.cc: constructors, operator=, swap, ~Arf", "libexactreal/src/arb.cc: constructors, operator=, swap, ~Arb"]}
{"id": "C97", "title": "Python: programs with balls that do not raise PrecisionError are right", "statement": "A Python program (with loops and branches of any kind) that computes with balls at any precisions and branches on <, <=, ==, !=, >, >= of balls with balls, integers and rationals: if it returns without PrecisionError, it returns what the same program returns on real numbers, for all real numbers in the balls that it started with. So it returns the same for all radii and precisions for which it returns. PrecisionError is only raised if the relation holds for some points of the two balls and fails for others. (!= of a ball and a rational is excluded, see the property on comparisons with rationals.)", "quantifier": "all programs, including infinite ones, all balls, all precisions, all points of the balls", "why_tests_cant": "the points of a ball and the programs are infinitely many", "anchors": ["pyexactreal/src/pyexactreal/cppyy_exactreal.py: enable_optional, PrecisionError", "libexactreal/src/arb.cc: operator<, operator<=, operator==, operator!=, operator>, operator>="]}
{"id": "C98", "title": "Archives from elsewhere", "statement": "Loading an archive of elements, however it was written, throws or returns one element for each one in the archive, with the coefficients from the archive and one coefficient for each generator; its generators exist and are in normal form and independent, exactly as if the library had created them; nothing that existed before is changed, and no second object for an existing number is created.", "quantifier": "all archives (trees of numbers, modules and references, not only those that were saved), all states of the loading process", "why_tests_cant": "malformed archives are unboundedly many", "anchors": ["libexactreal/exact-real/cereal.hpp: load", "libexactreal/src/real_number_product.cc: RealNumberProduct::load", "libexactreal/src/module.cc: make", "libexactreal/src/element.cc: Element(parent, coefficients)"]}
{"id": "C99", "title": "Expressions, moves and swaps of elements", "statement": "In any program of assignments z = e, where e is any expression in +, -, *, unary -, products with real numbers and scalars and quotients by scalars, of moves z = std::move(x), swaps and the statements of the previous property, each variable contains the number that the program says; the operands of an expression are not changed, even if z is one of them; an assignment whose expression throws changes no variable at all; no temporary object is left behind, shared or read after its end; moves and swaps only exchange the objects of the variables. Over a single ring of coefficients with no rational generator but 1 and without scalars, nothing throws.", "quantifier": "all programs of any length, all expressions of any depth, all elements, all rings of coefficients", "why_tests_cant": "expressions and the points where they can throw are unboundedly many", "anchors": ["libexactreal/exact-real/element.hpp: boost::ring_operators, impl", "libexactreal/src/element.cc: operator-, operator+=, operator-=, operator*=, operator/="]}
{"id": "C100", "title": "Elements can be used by several threads", "statement": "When any number of threads compute with elements at the same time (arb, the comparisons, floor, ceil, floordiv, conversion to double), on shared or on different elements, each operation gives exactly what it gives when nothing else goes on, however the threads are interleaved; and it is not delayed by the others: it returns after a number of its own steps that does not depend on them.", "quantifier": "all programs in any number of threads, all schedules, all elements and numbers", "why_tests_cant": "schedules are unboundedly many, and a wrong one only shows when the cache of a number overflows between two steps of another thread", "anchors": ["libexactreal/src/real_number.cc: arf", "libexactreal/src/element.cc: arb, operator<, floor, ceil, floordiv, operator double"]}
{"id": "C101", "title": "All comparisons and integer parts of elements, with the library's own balls", "statement": "With the balls the library computes, all of <, >, <=, >=, ==, != between elements, and between an element and an integer, a rational or a generator on either side, return the answer that the order of the real numbers gives, whenever the two numbers are identical or differ by more than 3 * 2^-63 of their size; floor(), ceil() and floordiv return the right integer if no integer is that close to the element (9 * 2^-63 for quotients). Nothing is assumed about linear independence (only that an element that is not 0 does not have the value 0).", "quantifier": "all elements, integers, rationals and generators, all digit streams (also those of the library's random number generator)", "why_tests_cant": "infinitely many digit streams and elements", "anchors": ["libexactreal/src/element.cc: operator<, operator>, operator==, floor, ceil, floordiv, arb", "libexactreal/exact-real/element.hpp: boost::totally_ordered"]}
{"id": "C102", "title": "Identities of scalars, products, quotients and units", "statement": "For every element x of a module without rational generators other than 1: 2 * x, x * 2 and x + x are the same, so are 0 * x, x - x and the zero of the module, (-1) * x and -x, 1 * x, x / 1 and x, x / (1/2) and 2 * x (with integer and rational scalars); a product with an integer never throws, and over a field products and quotients with nonzero scalars never throw. (x + y) - y, y + x - y, (x - y) + y and -(-x) == x. A product is zero only if a factor is, nonzero factors cancel, and x * x == x only for 0 and 1. truediv returns x for x * y / y, x / 1 and x * x / x, 1 for x / x, x + 1 for (x + 1) * (x - 1) / (x - 1), n for (n * x) / x; over the integers (n * x).truediv(m * x) has a value exactly if m divides n. (x * y - x * y).simplify() has rank 0. Over the integers exactly 1 and -1 are units, over a field exactly the nonzero constants.", "quantifier": "all elements, scalars and rings of coefficients", "why_tests_cant": "test/element.test.cc checks these identities for a few generated elements", "anchors": ["libexactreal/src/element.cc: operator+=, operator-=, operator*=, operator/=, truediv, unit, simplify", "libexactreal/test/element.test.cc"]}
{"id": "C103", "title": "The operators satisfy the laws of an ordered ring", "statement": "With balls that contain the generators and linearly independent generators: exactly one of x < y, x == y, y < x is true; < and its negation are transitive; equal elements compare in the same way with all others; x + z < y + z, x - z < y - z, -y < -x, x - y < 0 have the same answer as x < y, and x < x + y the same as 0 < y; multiplication by a positive element or integer preserves the answers, by a negative integer it reverses them; x > 0 agrees for the integer and the element 0; floor(x + n) = floor(x) + n, ceil(-x) = -floor(x), ceil(x) is floor(x) for integers and floor(x) + 1 otherwise, floor is monotonous and floor(x) + floor(y) <= floor(x + y) <= floor(x) + floor(y) + 1; x.floordiv(y) gives a remainder with 0 <= r < y (y < r <= 0 for negative y) in the order of the library.", "quantifier": "all elements over the generators, all valuations for which these are independent, all integers, all correct families of balls", "why_tests_cant": "these are laws for all elements; each needs an unbounded number of rounds of refinement", "anchors": ["libexactreal/src/element.cc: operator<, operator>, floor, ceil, floordiv, operator+=, operator-=, operator*=", "libexactreal/exact-real/element.hpp: boost::totally_ordered"]}
{"id": "C104", "title": "How many digits are computed", "statement": "arb(accuracy), the comparisons of elements with elements, generators, integers and rationals, floor, ceil, floordiv and the conversion to double look at no more digits of the generators and coefficients than needed: if at most K leading binary digits cancel when the terms of the element are added, arb(a) only uses approximations of at most 2 * (a + K + 2 * rank + 9) digits and takes at most log2((a + K + 2 * rank + 9) / a) + 1 rounds. A comparison of two numbers that agree in at most D leading binary digits asks for accuracies of at most max(64, 2 * (D + 5)) digits (D + 6 for rationals, D + 8 for floor, ceil and double, D + 12 for floordiv), as accuracies in the bound above. The outcome is the same for all generators whose approximations agree up to this precision.", "quantifier": "all elements, all accuracies, all digit streams, all K and D", "why_tests_cant": "the closeness of two elements and the cancellation are unbounded", "anchors": ["libexactreal/src/element.cc: arb, operator<, operator>, floor, ceil, floordiv, operator double", "libexactreal/src/real_number.cc: arb"]}
{"id": "C105", "title": "How many random digits a RealNumber draws", "statement": "arf(prec) of a random number draws exactly its leading zeros and prec + 1 further digits from its generator; of a constrained random number, none if the initial part has more than prec digits, and otherwise only the missing ones; of a product of k factors, those of its factors at precision prec + ceil(log2(3k)). All further digits are irrelevant to arf, arb, cmp and the conversion to double, and for a random number changing the last digit drawn changes the result. The comparison x < y of numbers that have D leading binary digits in common ends after at most max(1, ceil(log2(D+4))) rounds and draws no digits beyond those of precision max(2, 2(D+4)); likewise comparisons with floating point numbers and integers, and comparisons with rationals, which start at precision 64.", "quantifier": "all random, constrained random and rational numbers and products of them, all digit streams, all precisions, all D", "why_tests_cant": "streams with arbitrarily many leading zeros, numbers with arbitrarily many common digits", "anchors": ["libexactreal/src/random_real_number.cc: arf_", "libexactreal/src/constrained_random_real_number.cc: arf_", "libexactreal/src/real_number_product.cc: arf_", "libexactreal/src/real_number.cc: arf, arb, cmp, operator<, operator>, operator double"]}
{"id": "C106", "title": "Products of random numbers of any degree", "statement": "RealNumber * RealNumber is the product, / the exact quotient, and deglex orders by degree and then lexicographically, for products of random numbers of any degree (exponents are stored as C++ ints). [Partial: this holds exactly as long as no exponent of a product, and for deglex no total degree, exceeds 2^31 - 1; division is always right. A random number that is squared 31 times is undefined behaviour, and on no machine the result is x^(2^31).]", "quantifier": "all products of random numbers, all exponents, all behaviours of signed overflow", "why_tests_cant": "2^31 is out of reach of tests that multiply factor by factor; the bound must be known for all pairs", "anchors": ["libexactreal/src/real_number_product.cc: operator*, Key::persist, operator/, totalDegree, deglex"]}
{"id": "C107", "title": "Precisions computed with floating point logarithms", "statement": "The number of additional digits that products of real numbers and sums of generators are computed with comes from the C library's log2 of a double, rounded up. It is exactly the least b with 2^b >= 3n for n factors, respectively 2^b >= n for n generators, so that arf(prec) and arb(accuracy) are what they are with an exact logarithm - for every log2 that is right up to 2^-46 and exact at powers of two; without the latter there may be one digit more but never one less.", "quantifier": "all numbers of factors and generators up to 2^31 - 1, all implementations of log2 with this accuracy", "why_tests_cant": "a wrong rounding at some n costs a digit of accuracy only for products with exactly n factors", "anchors": ["libexactreal/src/real_number_product.cc: arf_", "libexactreal/src/element.cc: arb"]}
{"id": "C108", "title": "The characters printed for an element", "statement": "operator<< of an element writes a sum of terms c*x, x and c, separated by ' + ' and ' - ', with a minus sign in front only for the first term; read with the usual meaning (numbers in decimal, x for the random number or product that is printed like this) it denotes exactly the element's value. Elements that are == print the same characters, and if different random numbers are printed differently then a text denotes only one number and elements with the same text are ==. (Different random numbers can be printed the same, and then different elements print the same.)", "quantifier": "all elements over the integers and rationals, all modules, all names of random numbers", "why_tests_cant": "whether a text can be split in two ways into coefficients and names depends on all of its characters; a name that contains ' + ' is split wrongly only for some elements", "anchors": ["libexactreal/src/element.cc: operator<<", "libexactreal/src/real_number.cc: operator<<"]}
{"id": "C109", "title": "Which approximations of elements return", "statement": "x.arb(accuracy) returns exactly if x does not denote 0 or all its coefficients are 0. An element with a coefficient other than 0 that denotes 0 makes <, > with elements, real numbers, integers and rationals (unless the operands are ==), floor(), ceil() (unless it is an integer) and the conversion to double (unless it is rational) run forever. floordiv does not return either if one of its operands denotes 0, unless the first is an integer multiple of the second whatever the generators are. For every two random numbers there are such elements with integer coefficients.", "quantifier": "all elements over all rings with a generator system of random, constrained and rational numbers and their products, all accuracies >= 3, all digit streams; for the last sentence all pairs of seeds", "why_tests_cant": "a test can wait for some time, but cannot tell a computation that never ends from one that needs more digits; and the elements on which it does not end have coefficients with many digits", "anchors": ["libexactreal/src/element.cc: arb, lt, gt, floor, ceil, operator double", "libexactreal/src/random_real_number.cc: arf"]}
{"id": "C110", "title": "Random and rational numbers can be compared by several threads", "statement": "Any number of threads may compare random and rational numbers with each other, with Arfs, integers and rationals, and convert them to double, as often as they like: each comparison gives what it gives when nothing else goes on, however the threads are interleaved, and it returns after a number of its own steps that does not depend on the others. In a single thread this holds for all operations (also arb, refine, cmp) on all numbers.", "quantifier": "all numbers of threads, all lists of operations in each of them, all interleavings, all digit streams", "why_tests_cant": "the caches of the numbers are shared: a wrong interleaving of two steps is one of unboundedly many", "anchors": ["libexactreal/src/real_number.cc: arf, operator<, operator>, operator double, refine, cmp", "libexactreal/src/random_real_number.cc: arf_", "libexactreal/src/rational_real_number.cc: arf_"]}
{"id": "C111", "title": "Sums, products and quotients of elements of high degree are exact", "statement": "The sum, difference, product, power and exact quotient of elements, their simplification and whether they are equal are the same as when exponents of products of random numbers could have any size, or the same exception is thrown: for every number of multiplications that have led to the elements, whatever their degrees.", "quantifier": "all rings, all pairs of elements, all degrees, all behaviours of an overflowing int", "why_tests_cant": "a degree beyond 2^30 is only met after 30 squarings, and what happens then is undefined behaviour that a test may happen to survive", "anchors": ["libexactreal/src/element.cc: operator+=, operator-=, operator*=, truediv, promote", "libexactreal/src/module.cc: Module::make, span", "libexactreal/src/real_number_product.cc: Key::persist, totalDegree, RealNumber::deglex, RealNumber::operator/"]}
{"id": "C112", "title": "Conversions to larger rings of coefficients change nothing", "statement": "An element over the integers (or rationals) that is converted to the rationals (or a number field) is still the same integer or rational number if it was one, compares equal to the same integers and rationals, has the same rational coefficients, is 0 exactly if it was, and is less than another converted element exactly if it was before; floor and ceil are the same. The conversion commutes with simplify, multiplication and division by scalars; units stay units, and a quotient that exists before exists after the conversion and is the same. Converting integers to a number field directly or through the rationals is the same.", "quantifier": "all elements over all rings, all scalars, all conversions that preserve the value of coefficients; for the order all balls that contain the generators and get small", "why_tests_cant": "a conversion must agree with every operation on every element", "anchors": ["libexactreal/src/element.cc: Element(const Element<IntegerRing>&), Element(const Element<RationalField>&)", "libexactreal/src/element.cc: simplify, truediv, unit, operator optional<mpz_class>, operator optional<mpq_class>"]}
{"id": "C113", "title": "Rational numbers in archives are the numbers they denote", "statement": "Loading a rational real number from the text of an archive throws, or returns the one RealNumber with the value that the text denotes: it is the same object as every other RealNumber with that value, equal to the rational, and comparisons with other numbers return and are right. Saving it and loading it again, in this process or another, gives that number. An archive with a denominator 0 throws.", "quantifier": "all texts, all histories of rational numbers that a process has created and loaded", "why_tests_cant": "archives are input: there are infinitely many ways to write each number, and the archive may have been written by other software", "anchors": ["libexactreal/exact-real/cereal.hpp: Decerealizer::load(mpq_class), load_minimal(mpq_class), save_minimal(mpq_class)", "libexactreal/src/rational_real_number.cc: RealNumber::rational, RationalRealNumber::save, RationalRealNumber::load", "libexactreal/src/real_number.cc: operator==, operator<, operator>"]}
{"id": "C114", "title": "Products in archives are the products they denote", "statement": "Loading a product from an archive throws, or gives a RealNumber that denotes the product of the factors to the powers of their exponents: arf(prec) returns approximations of that number (accurate to prec - 1 bits, C06), and multiplying it gives the same RealNumber as any other way to obtain the result.", "quantifier": "all factors, all exponents that fit into an int (also negative ones and zero), all precisions", "why_tests_cant": "archives are input; approximations have to be right for all of them, at every precision", "anchors": ["libexactreal/src/real_number_product.cc: RealNumberProduct::load, RealNumberProduct::arf_, totalDegree, Key::persist"]}
