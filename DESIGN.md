# Formal model of flatsurf/exact-real in Rocq (Coq 8.16.1)

All paths below are relative to `/repo/libexactreal`.  The Coq sources are in
`rocq/theories`; every model definition cites file and lines.

## Layers

| file | models |
|------|--------|
| `Arf.v` | `src/arf.cc`, finite dyadic numbers, correct rounding (FLINT's contract, as a computable function) |
| `Arb.v` | `src/arb.cc`, balls, tri-state comparisons, interval conversion, arithmetic; FLINT's rounding of radii is a parameter `mag_up` with `mag_up_ok` (never smaller) and, for termination, `mag_up_tight` (at most doubled) |
| `Real.v` | `src/*real_number*.cc`: digits of each kind of real number, `arf`, `arb`, `refine`, `cmp`, comparisons, double. The source of random bits is a parameter; `rand48` is the generator of the code |
| `Cache.v` | `RealNumberBase::arf`: the two caches as a state machine over request histories |
| `Seed.v` | seeds and ids: counters as state machines over schedules of threads |
| `Gen.v` | generators as monomials: multiplication, division, deglex, product keys, hash |
| `Machine.v` | the same with exponents that are C++ ints |
| `MachineElement.v` | module make/span, promote, + - *, truediv of elements with int exponents; std::sort as insertion, fuel for the division |
| `Factory.v` | the unique factories as a state machine over histories of get, multiply, divide, collect |
| `Ring.v` | IntegerRing, RationalField, number fields (general contract `lawful` in `SpecRing.v`; the fields of degree at most two in a form that can be computed with) |
| `NumberField.v` | number fields of any degree: an irreducible polynomial and a real root, src/number_field.cc on top of it |
| `Module.v`, `Element.v`, `Division.v` | `src/module.cc`, `src/element.cc` |
| `Loops.v` | the precision doubling loops of `element.cc` (arb, <, >, floor, ceil, floordiv, double, hash) |
| `RandomIn.v` | `RealNumber::random(lower, upper)`, `random(double)` |
| `Serial.v` | `exact-real/cereal.hpp` and the save/load functions, with cereal's pointer tracking |
| `Yap.v` | `exact-real/yap/*`: evaluation order, aliasing, parameters |
| `ModuleFactory.v` | objects of modules: keys by ids, hashes, the factory, lifetimes |
| `Compare.v` | comparisons derived by boost::totally_ordered |
| `Double.v` | conversions to double with overflow |
| `Special.v` | floats and balls with infinities and NaN |
| `Output.v` | operator<< of floats, real numbers and modules, as text |
| `Shared.v` | RealNumberBase::arf step by step, for several threads on one object |
| `SharedMany.v` | the same for all objects, with the calls that products and numbers from intervals make on others |
| `Threads.v` | the operations of `Loops.v` as programs that call arf, in threads that share the caches of `SharedMany.v` |
| `ThreadsNumbers.v` | the operations of real numbers (and the remaining ones of elements) as such programs |
| `Py.v`, `PyYap.v` | pyexactreal: methods of elements; expressions and the garbage collector |
| `Store.v` | elements as objects: variables, aliases, exceptions |
| `Expr.v` | expressions with temporary objects, moves, swaps |
| `Life.v` | Arf and Arb as objects: constructors, copies, moves, swaps, memory |
| `PyBall.v` | Python programs that branch on comparisons of balls |
| `Text.v` | texts of numbers in archives, Arf(text, base, exponent) |
| `RawRational.v` | rational_real_number.cc 67-91, cereal.hpp 82-84, 118-122, 227-235 with fractions that need not be in lowest terms |
| `IntExponents.v` | real_number_product.cc 519-560 with any exponents, as they come from archives |
| `Construct.v` | balls of intervals, constants, midpoints |
| `Print.v` | operator<< of elements: sorting in a std::set, signs, factors (as tokens) |
| `Native.v` | native integer types: casts, lexical_cast, mpq_class(string), platforms |
| `Spec*.v` | small independent specifications (real semantics, valuations, order, rounding) |
| `*Proofs*.v`, `Independence.v`, `Leading.v`, `Near*.v`, `Balls.v`, ... | proofs |
| `Prop*.v` | the theorems `Cnn_...`, examples that meet their hypotheses next to them |
| `Documented.v` | the examples in the library's documentation, computed in the model (evidence that the model is the code: e.g. the documented bounds of the ball of 1/3, bit by bit) |
| `Fast48.v` | a faster way to compute the digits of random numbers in examples, proved equal |
| `Assumptions.v` | `Print Assumptions` of every theorem |

Loops that need not terminate take a number of rounds (fuel); theorems about results hold for
every amount of fuel, theorems about termination say that from some amount on the result is
always there (`eventually`).  Exceptions are values of `result`.

## Semantics used by the statements

Values are real numbers of Coq's standard `Reals`; rounding is specified by Flocq's
`round radix2 (FLX_exp prec)` (multi-precision floats) and `FLT_exp (-1074) 53` (doubles);
the extended real line and limits are Coquelicot's `Rbar` and `is_lim_seq`.
Elements are specified by their value under *every* valuation `rho` of the random generators
(`SpecModule.value`).  A random number is specified by its stream of binary digits
(`SpecReal.stream_value`, a limit).  Properties that quantify over schedules or histories do so
over lists of steps.

## Trusted base

* Coq's kernel (8.16.1), and the statements in `Prop*.v` with the definitions in `Spec*.v`.
* The axioms printed in `Assumptions.v`; all are from Coq's standard library:
  `ClassicalDedekindReals.sig_not_dec`, `ClassicalDedekindReals.sig_forall_dec`,
  `FunctionalExtensionality.functional_extensionality_dep`, `Classical_Prop.classic`.
  Theorems that do not mention real numbers are mostly closed under the global context.
* That the model is the code: by reading, function by function, with the citations in comments.

Contracts of components that are not in the repository, modelled by their documentation:

* FLINT/Arb: `arf_*` are correctly rounded; `arb_*` enclose, with radii rounded up by `mag_up`;
  `arb_rel_accuracy_bits`, `arb_get_interval_arf` as in FLINT's source.
* E-ANTIC: an element of a number field is a rational polynomial in the generator, computed with modulo the minimal polynomial (`NumberField.v`); equality of embeddings and `floor` are taken to be what E-ANTIC promises.  That this satisfies `SpecRing.lawful` is proved (`C50_lawful_number_fields`), as well as for the computable model of degree at most two (`C50_lawful_fields`).
* GMP: integers and rationals; `gmp_urandomm_ui`-like calls return a number in range; `mpq_class(string)` parses digits.
* The unique factory (`external/unique-factory`) and `gmpxxll` are empty submodules here; the factory
  is modelled by its use: a map from keys to weak pointers with objects that may be kept alive for some time.
* cereal: pointer tracking by address; cereal's text and binary encodings are not modelled (the texts that the code itself writes are, see C79). In C98 the factors of a product in an archive are random numbers and the exponents natural numbers; negative exponents are in `IntExponents.v` (C114); other factors are not modelled.
* std::ostream: `%g` for doubles, GMP's decimal output of integers and rationals (`Output.v`; the texts in the documentation of the library, including digits of random numbers, are what the model computes).
* boost::yap: evaluation of nodes as written in `exact-real/yap`; boost::lexical_cast follows the C++ locale.

Infinities and NaN of Arf and Arb are modelled in `Special.v` only (C83–C85); the other files are about finite
floats, where C85_conservative says that both models agree.

Exponents of products are unbounded in `Gen.v` and everything above it; `Machine.v` (C106) has them as C++ ints and says when both agree, `MachineElement.v` (C111) does so for the arithmetic of elements. `Real.v` and
`Loops.v` compute `ceil(log2(n))` exactly; `FloatLog.v` (C107) has it in floating point and says when both agree.

Not modelled: overflow of
`long` precisions, the sign of zero, `Arb(string)`, `operator<<` of Arb (FLINT's arb_get_str), moved-from operands of expressions, the Python bindings apart from the methods of `exact_reals.py` in `Py.v` and the expressions of `cppyy_exactreal.py` in `PyYap.v` (not: SageMath's coercion, printing, hashing, the target of `_algebraic_` is represented by the real numbers), and memory management of C++ objects
(except the factory, Python's expressions and the variables of `Store.v`). A constrained random number in the model of the factory does not keep the
random number inside it alive.  Assertions: CHECK_ARGUMENT throws (default build); LIBEXACTREAL_ASSERT
is an `AssertionFailed` result where it can fail.

## Properties: what is modelled, how it is proved

For every property there are theorems `Cnn_...` (see MANIFEST.json for names and status).
Properties that turned out to be false for the code are kept: a theorem `..._refuted` gives a counterexample
that computes in the model, and theorems `..._partial` say what does hold.

| id | model | proof |
|----|-------|-------|
| C01, C02 | `Arf.v` | reduction of rounding to integer division with remainder, Flocq |
| C03, C04, C56 | `Arb.v` comparisons | endpoints of balls, case analysis |
| C05 | `Arb.v` interval, `Construct.v` | outward rounding |
| C06, C57 | `Real.v` arf of rationals, digits, products | error analysis of truncated streams; induction on the factors |
| C07, C58 | refine, arb | as C06, exponent bookkeeping; `PropExact.v`: exactly when the ball contains the number, from the digits after the last one asked for |
| C08, C59 | cmp | grid argument: no number with few bits lies strictly between approximation and value; `PropExact.v`, `PropRationalCmp.v`: exactly what is answered for random numbers and rationals |
| C09, C60 | double | the same at 54 bits; `PropExact.v`: exactly when double rounding goes wrong |
| C10 | `Cache.v` | invariant over request histories: entries are what arf_ computes |
| C11, C61 | comparison loops | convergence of balls for termination; error bounds; `PropExact.v`: exactly when a random number is compared wrongly with a dyadic number |
| C12–C15 | `Gen.v` | exponent vectors: sorted lists, merge, hash modulo 2^64 |
| C16 | `Factory.v`, `ModuleFactory.v` | invariant over histories |
| C17, C38, C39, C72 | `Seed.v`, `rand48` | invariants over schedules; linear algebra of the LCG modulo 2^48 |
| C18–C20, C62 | `Module.v` | sorting, uniqueness of sorted lists, unions; `PropMore.v`: exactly when the order of span matters |
| C21–C27, C63, C75, C53 | `Element.v`, `PropPromote.v` | linear combinations; independence of monomials over valuations (polynomials that vanish everywhere are zero) |
| C28, C64 | `Division.v` | leading terms with respect to deglex, well-founded induction for termination |
| C30, C70 | unit, `PropUnits.v` | leading terms of products; over a field the rational generator is replaced by 1 |
| C33–C37, C71 | simplify, scalars (`PropScale.v`), coefficients, change of ring | induction on coefficient lists |
| C29, C31, C32, C44, C45, C52 | `Loops.v` with arbitrary enclosing balls | interval arithmetic; convergence for termination |
| C65–C69, C76 | `Loops.v` with the balls of `Real.v` | the same with balls that are off by a factor of at most four |
| C40, C41 | `Serial.v` | simulation between writer and reader state |
| C42, C43 | `RandomIn.v` | arithmetic of dyadic intervals, neighbours of doubles |
| C46 | `Native.v` | ranges of casts, decimal strings |
| C47, C73 | Module::one, `PropPromote.v` | case analysis |
| C48 | `Yap.v` | induction on expressions; temporaries are fresh |
| C49, C50, C74 | `Ring.v`, `NumberField.v` | arithmetic of Q and of Q(sqrt d); polynomials modulo an irreducible polynomial |
| C51, C55 | `Arb.v` arithmetic | error propagation |
| C54 | digits | prefix of streams |
| C80 | `Compare.v` | from C32 and C11; floats and rationals: error bounds of `RealProofs5-7` |
| C83–C85 | `Special.v` | limits of sums, products and quotients (Coquelicot); case analysis over special values, reduction to `Arf.v`, `Arb.v` |
| C86–C88 | `Output.v` | decimal logarithms, rounding to six digits, texts without separators; reading is shown to be unambiguous |
| C89 | `Real.v` (`rnum_eqb`, `num_bool`), `Compare.v` | induction on the factors; digits determine the value |
| C90–C93 | `Py.v` (methods of `exact_reals.py` on top of `Element.v`, `Division.v`, `Loops.v`) | from the theorems on elements (C26–C32), uniqueness of coefficients; no zero divisors: leading terms |
| C94 | `PyYap.v` (heap of Python objects, references known to Python and to C++, collector) | invariant over histories: all parts of the expression of a variable are reachable from it |
| C95 | `Store.v` (variables own implementations, operators read and write them step by step) | invariant of memory: each object has one owner; every operator is shown to do what the function of `Element.v` does |
| C96 | `Life.v` (structs with words in place or pointers, statements of a program) | invariant of memory (valid, unshared, owned), every statement does what it means |
| C97 | `PyBall.v` (programs as possibly infinite trees, runs as an inductive relation) | induction on the run, with the enclosures of C51 and the comparisons of C03, C04 |
| C98 | `Serial.v` (`load` on arbitrary archive trees) | induction on the archive: the table of loaded pointers only contains valid objects; degenerate products refute it |
| C99 | `Expr.v` (temporary objects are variables with names of their own; the end of a full expression destroys them, also after exceptions) | induction on expressions, on top of the invariant of C95 |
| C82 | `Double.v` | rounding of `Arf.v` plus the bound on exponents, compared with Flocq's binary64; elements as C44 |
| C81 | `Shared.v`, `SharedMany.v` | invariant over all schedules: entries are right, and no thread is about to wipe the cache; a measure that each step of a thread decreases; for any number of precisions a weaker invariant: entries are values that can arise when some calls return 0 (`SpecSharedSafe.v`); the refutation runs a schedule of two threads |
| C100 | `Threads.v` | the invariant of C81 together with: what each thread is doing leads to the result it has alone, and makes only calls it makes alone; a measure for the steps that are left; the refutation runs a schedule of two threads |
| C101 | `Loops.v`, `Compare.v`, `Balls.v` | the answers hold for numbers that are within a relative distance of 3 * 2^-63 (LoopsProofs); if the numbers differ by more, then the order is the same; termination because the values differ |
| C102 | `Element.v`, `Division.v` | both sides have the same value for all values of the indeterminates, and elements are determined by their values; leading coefficients of products; the sum of the coefficients is an integer |
| C103 | `Loops.v`, `Compare.v` | answers are unique, and equivalent inequalities between the values have the same answer |
| C104 | `Loops.v`, `Real.v` (`SpecCost.v`) | explicit constants for the convergence of the balls: product 128, sum of r terms 128 * 4^r times the sum of the absolute values; then induction on the rounds; agreement of two families of balls up to the precision shows that nothing else is used |
| C105 | `Real.v` (`SpecDraw.v`) | the fuel of the digit loops counts the digits drawn, so "how many" is the exact fuel with which they return; locality by induction on the loop; the rounds of comparisons by induction with the bound 5 times the size times 2^-prec for the distance of a number to its ball |
| C106 | `Machine.v` (`SpecMachine.v`): Gen.v with exponents in `int`, overflow as a parameter | refinement of `Gen.v` while exponents fit, by induction on the merge loop; conversely everything stored is an int; 31 squarings by induction |
| C107 | `FloatLog.v` (`SpecFloatLog.v`): the two places where a precision is computed with `log2` of a double, for any `log2` | integers are exact doubles; between powers of two the logarithm stays 2^-k away from integers (ln x <= x - 1) |
| C108 | `PrintText.v` (`SpecPrintText.v`): the tokens of `Print.v` spelled with the texts of `Output.v` and `Text.v` | a grammar of sums over names; names are bracketed, so that the first blank, star or end outside of brackets ends a term: texts have one reading |
| C109 | `Loops.v` (`SpecStuck.v`, `PropStuck.v`) | a ball within four radii of 0 with 3 bits of accuracy is exactly 0, but sums of balls of generators are never exact; rand48 numbers are rational, so two of them have a relation |
| C110 | `ThreadsNumbers.v` | the calls of a comparison are at 54 and powers of 2, then C100; alone, a program gives what the functions of `Real.v` give with enough digits |
| C111 | `MachineElement.v` (`SpecMachineElement.v`): the arithmetic of modules and elements over the generators of `Machine.v` | refinement of `Module.v`, `Element.v`, `Division.v` function by function while degrees fit; for the division the leading generators decrease, so degrees stay below twice the largest one |
| C112 | `Element.v` `change_ring` (`SpecRing.v`, `PropConvert.v`) | the conversion preserves values (C37), so everything that is characterised by values (C26, C27, C28, C30, C33, C34, C103) is the same before and after |
| C113 | `RawRational.v` (`SpecRawRational.v`, `PropRawRational.v`) | rationals as the fractions GMP stores; invariant of a process: addresses are different, fractions in lowest terms are unique (Gauss), so objects are numbers. Refuted for texts such as "2/4" and "1/0": with equal values the loop of `<` keeps overlapping balls |
| C114 | `IntExponents.v` (`SpecIntExponents.v`, `PropIntExponents.v`), `Machine.v` | for positive exponents the function is `arf_prod` of `Real.v`, so C06 applies; refuted for others by evaluation and by Machine.v |
| C79 | `Text.v` | digits by division; text contains no separators; no leading zeros |
| C78 | `Construct.v` | arithmetic of reals |
| C77 | `Print.v` | insertion sort with a strict order; a calculator reads the text; uniqueness of sorted lists |
