# Design of the formal model

The code under study is the `logicaffeine` workspace in `/repo` (Rust). The
model is in Rocq (Coq 8.16.1), under `rocq/theories`.

## Conventions

* Every component `X` has up to three kinds of file.
  `XModel.v` is a function-by-function transcription of the Rust source, with
  `file:lines` citations and a note for each simplification.
  `XProofs.v` holds the lemmas.
  `XProps.v` holds only the property theorems, each closed by `exact`, with a
  concrete `Example` showing that the hypotheses are met, and `Print Assumptions`.
* Small specifications that a property needs (what "sum of all increments" means,
  what "a model satisfies a clause" means) are written next to the property,
  independently of the model's helpers.
* A theorem named `..._refuted` exhibits a concrete input for which the English
  property is false of the modelled code. A theorem named `..._partial` proves a
  weaker statement; the comment above it says what is missing.
* Machine integers are `Z` (or `N`) with explicit range hypotheses and explicit
  wrap-around where the Rust code wraps. `HashMap`/`HashSet` values are modelled
  by finite maps/sets; where Rust iteration order can influence the result, the
  order is a parameter of the model and theorems quantify over it.
* Panics are modelled by `None` (or an explicit error value).

## Trusted base

* Coq's kernel (and `coqchk`, run by the gate).
* The axioms printed by `Print Assumptions` for each property theorem (see the
  table at the end).
* The transcription from Rust to Gallina, which is by hand. The comments cite the
  lines. Parts of the Rust code which are not modelled are listed per component.

## Plan per property

| Id | What is modelled | How it is proved |
|----|------------------|------------------|
| C01 | `GCounter` as finite map replica -> count; system of replicas with increment and merge steps | semilattice laws by map extensionality; invariant over histories that every entry is at most, and the owner's entry equals, the number of increments |
| C02 | `PNCounter` (two maps and a version clock), deltas | same; delta = full state unless dominated, and domination implies containment by a history invariant |
| C03 | `VClock` | pointwise order and maximum |
| C04 | `DotContext` with clock and cloud, the compaction loop | `has_seen` of each operation characterised exactly; termination measure for compaction |
| C05 | `LWWRegister` | refutation of commutativity on equal timestamps; the law for different timestamps |
| C06 | `MVRegister` as a list of (value, clock) | set-level characterisation of `merge` |
| C07 | `ORSet` with add-wins bias | per-dot characterisation: a dot is live after merging iff live in both, or live in one and unseen in the other |
| C08 | `ORSet` with remove-wins bias | refutation with three reachable replicas |
| C09 | `ORMap` with abstract value merge | per-dot characterisation as for C07; laws for values from the laws of the value type |
| C10 | `RGA`, `YATA` | node sets form a semilattice, displayed list is a function of the node set (sorting is canonical); each node displayed exactly once |
| C11 | `DeltaBuffer` | refutation with a concurrent peer version; theorem for totally ordered versions |
| C12 | deltas of `ORSet`, `RGA`, `PNCounter` | refutation for removals; theorem for up/down counters |
| C13-C15 | journal byte format, replay loop, mount, mutate, compaction; file system as bytes, crash as truncation | induction on entries; refutations for torn tail followed by append |
| C16-C21 | cooperative scheduler: tasks as resumable state machines, channels, timers, select, abort, chooser | step function; invariants by case analysis over every step; determinism and replay by simulation |
| C22-C23 | GF(256) arithmetic, matrices, Reed-Solomon encoder/decoder, shard frames | field laws by exhaustive computation inside Coq; Vandermonde invertibility by a polynomial root-counting argument; Gauss-Jordan correctness by loop invariant |
| C24-C25 | varint, zig-zag, tagged values | induction on bytes and on values |
| C26-C29 | limb vectors, `BigInt`, `Rational`, `Decimal` | limb lists denote integers; each routine proved against `Z`/`Q` |
| C30-C33 | calendar arithmetic, hybrid clocks, zone tables | `lia` over Euclidean division; induction |
| C34 | index resolution and the text fast path | case analysis; refutation for non-ASCII text |
| C35 | `Interner` | invariant over histories; refutation for the empty string |
| C36 | `UnionFind` | invariant: parent forest, classes equal the generated equivalence |
| C37-C39 | RUP checker, 2-SAT, Horn | semantic soundness and completeness |
| C40 | Fourier-Motzkin elimination | soundness and completeness by density of the rationals |
| C41-C43 | integer procedure, ring normaliser, congruence closure | semantic soundness (and completeness where it holds) |
| C44 | `LogosDivU64` | Granlund-Montgomery argument over `Z` |
| C45 | `LineIndex` over lists of characters with UTF-8 and UTF-16 widths | induction on the text |
| C46 | `FileSipper` arithmetic | list lemmas |

## What is modelled and what is not

| Component | Modelled | Not modelled |
|-----------|----------|--------------|
| crates/logicaffeine_data/src/crdt | all merge, update, query and delta functions of counters, clocks, contexts, registers, sets, maps, sequences and the delta buffer | serialisation; 64-bit overflow of counters and clocks; random replica ids and wall clocks (parameters) |
| crates/logicaffeine_data/src/types.rs `LogosDivU64` | construction, division, remainder with 64/128-bit words | nothing |
| crates/logicaffeine_base/src/temporal.rs | calendars, week dates, business days, date-times, spans, leap seconds, hybrid and sync clocks, zone tables, named-zone rules | text formatting and parsing; i64 overflow except where a property mentions it; the name lookup |
| crates/logicaffeine_base/src/intern.rs | new, intern, resolve, lookup, len | the arena that owns the text (strings are values) |
| crates/logicaffeine_base/src/union_find.rs | all functions | `usize` overflow of ranks and lengths |
| crates/logicaffeine_proof/src/rup.rs | the checker: propagation, `is_rup`, `check_refutation` | trimming and proof construction helpers |
| crates/logicaffeine_proof/src/twosat.rs | all functions: implication graph, two depth-first searches, model, certificate check | stack depth of the recursion |
| crates/logicaffeine_proof/src/hornsat.rs | all functions | nothing |
| crates/logicaffeine_system/src/network/sipping.rs | chunk arithmetic, past-the-end behaviour, manifest | hashing, memory mapping, the network |
| crates/logicaffeine_data/src/indexing.rs | get, set and range indexing of sequences, texts and maps | cloning and shared ownership |
| crates/logicaffeine_lsp/src/line_index.rs | all functions; texts are lists of characters with their UTF-8 and UTF-16 lengths | nothing |
| crates/logicaffeine_data/src/wire.rs, codec generation in compile/src/codegen/types.rs | all readers and writers, built-in codecs, generated enum codecs | capacity reservation; struct codecs |
| crates/logicaffeine_base/src/numeric.rs lines 1–506 (big integers) | limbs, normalization, schoolbook multiplication, binary long division with their machine words; signs, powers, comparison, bytes, decimal parsing and display | `to_f64`; formatting flags |
| crates/logicaffeine_base/src/numeric.rs lines 508–1070 (fractions, decimals) | all functions, on top of the big-integer model; texts as bytes | `to_f64`; trimming of non-ASCII white space; formatting flags |
| crates/logicaffeine_base/src/numeric.rs lines 1072–1297 (complex numbers) | all functions; texts as bytes | trimming of non-ASCII white space |
| crates/logicaffeine_base/src/numeric.rs lines 1299–1435 (residues) | all functions | display |
| crates/logicaffeine_base/src/numeric.rs lines 1449–1616 (floats, hash) | all functions on 64-bit patterns; the IEEE value of a pattern, `is_nan`, `partial_cmp` and exact `as f64` are part of the model's trusted reading of the standard library | nothing |
| crates/logicaffeine_compile/src/concurrency/fec.rs lines 15–308 | all functions; the hash map of groups is an association list visited in an arbitrary order | memory limits |
| crates/logicaffeine_system/src/storage/mod.rs lines 57–300, distributed.rs lines 59–350 | CRC-32, entry format, replay, mount, mutate, compact, maybe_compact; crashes as prefixes of an append; tasks of `Distributed` as interleaved steps | bincode (a parameter with a faithfulness hypothesis), network, I/O errors |
| crates/logicaffeine_system/src/fs/mod.rs lines 183–276 | `NativeVfs` name resolution, read, write, append, remove; POSIX meaning of a path without symbolic links; `Path::join`, `with_extension` | directories, I/O errors, browser store |
| crates/logicaffeine_runtime/src/scheduler.rs, channel.rs, task.rs, seed.rs, part of config.rs | the cooperative scheduler: all functions but the work-stealing hooks; tasks are arbitrary deterministic state machines; 64-bit clock, generator and trace; every panic is a `None` | executor.rs (work stealing), payload variants, 64-bit identifiers running out |
| crates/logicaffeine_kernel/src/{lia,omega,ring,cc,reify}.rs, and the `try_lia`/`try_omega`/`try_ring`/`try_cc` reductions and extractors of reduction.rs (lines 1640–2500) | all functions, on arbitrary kernel terms; goals as terms of the embedded `Syntax` type; variable order of the elimination is a parameter | normalisation of the goal before the check, derivation objects, the interner's 64-bit counter running out |
| crates/logicaffeine_proof/src/unify.rs (term and expression unification, occurs check, substitution application, composition, one-sided matching) | on terms Constant/Variable/Bound/Function/Group and expressions with predicates, identities, connectives, quantifiers, modal/temporal/other forms; recursion without a structural measure carries a step bound and `returns` means: for every large enough bound | capture-avoiding substitution and beta reduction (lines 290–880), error payloads |
| crates/logicaffeine_proof/src/discrimination.rs | all functions; hash maps as association lists by key | the `HashMap` iteration order (results compared up to permutation) |
| crates/logicaffeine_kernel/src/simp.rs | all functions, on arbitrary kernel terms | normalisation of the goal before the check |
| crates/logicaffeine_base/src/describe.rs (integer columns: lines 23–850, 1835–2429) | all functions used by `describe_int_seq` and `decode_int_seq`; a panic of the encoder is `None` of the outer option; a reader is a function of the bytes left | vector capacities and memory exhaustion, the stand-alone complexity measures (860–1834), float and string columns |
| crates/logicaffeine_data/src/types.rs (integer maps and sets, lines 459–1329) | all functions; the four hash tables are instances of one definition (a set stores unit); a failed `assert_unchecked`, an index out of bounds or an endless probe is `None` | `usize` overflow of table sizes, the debug assertions, the compiler analyses that pick a representation |
| crates/logicaffeine_proof/src/cnf.rs | all functions; the hash sets of seen clauses are membership in the clause list | the calls into the solver (`solve`), which C69 replaces by the checker of C37 |
| crates/logicaffeine_proof/src/cardinality.rs | all functions | |
| crates/logicaffeine_proof/src/xorsat.rs | all functions; rows are integers instead of word vectors | the text of the certificates |
| crates/logicaffeine_proof/src/gf2.rs | `is_invertible_gf2`, `solve_gf2`, `SolutionSpace` | `gl_order`, the brute-force count and the floating-point density; `count` and `enumerate` overflow for kernels of dimension 64 and more, excluded by at most 63 unknowns |
| crates/logicaffeine_proof/src/pr.rs, proof.rs | both checkers, permutations, witnesses, proof steps | stamps and hash sets are recomputed; the queue of the indexed propagation is a worklist of clauses |
| crates/logicaffeine_proof/src/symmetry_detect.rs:1-348 | `perm_is_automorphism`, `AutomorphismIndex` | the search for generators |
| crates/logicaffeine_proof/src/pseudo_boolean.rs | all functions | overflow of i64 coefficients; components and coefficient classes are listed in order of first member |
| crates/logicaffeine_proof/src/matching.rs | all functions | recursion of the augmenting search runs on fuel proved sufficient |
| crates/logicaffeine_proof/src/pigeonhole.rs | all functions over expressions | hash sets and maps are lists; the order of the atom table is a parameter of the theorems |
| crates/logicaffeine_proof/src/ordering.rs | all functions | u32::MAX entries of the certificate are None |
| crates/logicaffeine_proof/src/parity_cardinality.rs, lyapunov.rs:586-631 | refute, extract_xor | hash sets and maps are lists; the signature word of a clause is its list of literals |
| crates/logicaffeine_compile/src/optimize/fold.rs, semantics/arith.rs, semantics/compare.rs, interpreter.rs (evaluate_expr_sync) | fold_expr and its helpers, binary_op, evaluation of operators, variables and opaque calls | values beyond numbers, booleans, text and sequences are opaque; sequences are not shared; closures, interpolated strings, today/now are not modelled |
| crates/logicaffeine_compile/src/optimize/fold.rs:10-272, interpreter.rs (execute_stmt_sync, Environment) | collect_writes, collect_bool_syms, fold_stmt, fold_stmts; Let, Set, If, While, Repeat, Return, Break, Show, calls; scopes and frames | statements that only evaluate operands are one form; Inspect, Zone, Concurrent, Parallel left out; tail calls are calls; depth limit left out |
| crates/logicaffeine_compile/src/optimize/dce.rs | collect_expr_reads, collect_stmt_reads, dead_store_elimination, eliminate_dead_code, over the statements and execution of the row above | closures, Escape, Inspect, Zone, Concurrent, Parallel; which tags are calls or unread is a parameter |
| crates/logicaffeine_compile/src/optimize/propagate.rs | propagate_stmts, propagate_stmt, substitution of literals, writes that end a constant | the forms substitution does not enter are a parameter; patterns bind one name |
| crates/logicaffeine_base/src/uuid.rs | stamp, version, variant, new_v1/v4/v6/v7/v8, encode_canonical and decoding on the table and SSSE3 paths (register operations modelled lane by lane), parse, parse_many, encode_many | trim of Unicode white space, v3/v5 hashing, clocks and random sources |
| crates/logicaffeine_base/src/money.rs | Currency, Money, RateTable, the ambient table | the thread-local cell is an option passed along |
| crates/logicaffeine_base/src/dimension.rs | igcd, Exp, Dimension (release-build wrapping) | display, named dimensions |
| crates/logicaffeine_base/src/quantity.rs:19-153 | Unit, Quantity and in_best_unit | symbols, the table of units |
| crates/logicaffeine_compile/src/vm/nanbox.rs:73-450, vm/value.rs:250-410 | NanBox encoding, from_runtime, with_runtime, clone, drop, make_heap_mut, the register fast paths, with the heap as a map of counted cells | the kernel operations behind the general path are a parameter that is exact on integers |
| crates/logicaffeine_compile/src/interpreter.rs:4056-4395, 1267-1317; semantics/collections.rs | ensure_collection_owned, deep_clone, Let, Set, Show, Push, Pop, SetIndex, SetField and their place forms; Rc counts as occurrences in variables, cells and the value in hand | maps, sets, functions, control flow; Nothing is the number 0 |
| crates/logicaffeine_kernel/src/term.rs:160-440 | Universe succ, max, imax, substitute, is_subtype_of, equiv; LNat, simp_lnat, imax_pivot, subst_lnat, level_leq, lnat_leq, leq_linear | names are lists of code points; recursion by fuel |
| crates/logicaffeine_kernel/src/type_checker.rs:871-1287, 1446-1467, 1593-1688 | substitute, occurs_free, free_vars, all_var_names, fresh_name, freshen, substitute_avoiding, types_equal, the eta step | MutualFix; sorts, literals and globals are leaves compared by a parameter |
| crates/logicaffeine_kernel/src/type_checker.rs:51-170, 453-525, 1309-1323; certificate.rs:64-89 | infer_type for Sort, Var, Global, Pi, Lambda, Let, App; check_type; infer_sort; the fast path of is_subtype; recheck of certificates | Match, Fix, Const and literals; normalize and the slow path of is_subtype are parameters |
| crates/logicaffeine_kernel/src/recheck.rs:32-41, 59-330 | to_db, from_db, shift, subst, beta_open, open_mutual | to_db and from_db of mutual blocks; indices are unbounded |
| crates/logicaffeine_kernel/src/recheck.rs:452-582, 612-713, 749-875, 1525-1566, 1591-1648 | whnf (beta, zeta, delta), def_eq, proof_irrel, is_sub, var_type, infer, infer_sort, check, recheck, double_check | Match, Fix, MutualFix, Const, literals, builtins, quotients, reduceBool, structure eta; universe operations are parameters (C89) |
| crates/logicaffeine_proof/src/interval_sched.rs:15-142 | overlaps, schedule_or_overflow, peak_concurrency, greedy_assign, is_valid_schedule, is_overflow_witness | nothing; times are integers (the code only compares them) |
| crates/logicaffeine_proof/src/register_alloc.rs:16-116 | register_pressure, allocate, is_valid_allocation, is_spill_certificate | nothing |
| crates/logicaffeine_proof/src/xor_drat.rs:32-192 | gadget_clauses, key, resolve, resolution_refutation, emit_xor_drat, emit_drat_over_support | emit_modp_drat; literal codes are unbounded; the two budgets are arguments |
| crates/logicaffeine_proof/src/dimacs.rs:18-113, cdcl.rs:25-57 | parse and all errors, print, Lit::new, var and is_positive with their 32 bits | into_solver; strings are lists of Unicode scalar values; lines() keeps a last empty line and a carriage return, both of which parse trims away; usize has 64 bits |
| crates/logicaffeine_proof/src/proof_emit.rs:38-56, 101-292, 439-755 | dimacs, push_clause, emit_drat, try_assignment_witness, emit_dpr, parse_dpr, rup_hints, build_chain, emit_lrat, check_lrat, verify_rup_step | emit_sr, the writers with a size limit; u64 clause numbers are unbounded when written and 64 bits when read; error messages of parse_dpr |
| crates/logicaffeine_kernel/src/positivity.rs:32-234, context.rs:245-255, 366-430, 449-464, 500-514, 545-612, type_checker.rs:519-582, interface/repl.rs:89-117 | check_positivity, check_positivity_mutual, occurs_in, is_recursive_arg, check_constructor_universes, add_inductive, add_constructor, add_constructor_checked, add_mutual_inductives, the Inductive command | MutualFix, constants at levels, literals, the recursor that the command derives, block membership, the parameters that the command puts in front, error messages |
| crates/logicaffeine_kernel/src/bitvector.rs:39-94, crates/logicaffeine_compile/src/optimize/symmetry.rs:78-1048 | rev_n, the three identities, check_reflection_identities; every recogniser and both rewrites (bit loop, range loop, reflection search and entry, value search and entry), break_symmetry_stmts; an interpreter for the fragment | other expressions and statements (one opaque form each), the attack-relation and permutation-group certificates (constants), types, arenas; integers in the interpreter are unbounded, blocks of one call share names |
| crates/logicaffeine_compile/src/optimize/inline_tiny.rs:30-235, gvn.rs:14-483 | the inliner; keys, cache, dependencies, hoisting, rewriting and invalidation of common subexpression elimination, on the syntax and interpreter of C99 | collections, fields, text and the statements about them; top-level statements; __cse names are numbers from 1000 on, assumed not to clash with source names |
| crates/logicaffeine_compile/src/concurrency/marshal.rs:520-524, 703-920, 1733-1763, 1790-1806, 2856-2862, 5790-5877; stream.rs:14-104 | frame header, checksum, framing and unframing, receive limits, peer profile codec, handshake, negotiation, batch marker, shard marker, stream framing and incremental deframing | message bodies, compressors, the value codec, the network; usize is 64 bits; the compaction of the deframer's buffer is not observable and not modelled |
| crates/logicaffeine_kernel/src/termination.rs:22-67, 120-487; recheck.rs:1009-1068, 1103-1261; type_checker.rs:51-446, 453-525, 584-600, 778-865, 1309-1360, 1688-1722; reduction.rs:52-405 | the guard of both kernels for a single fixpoint; inference of match, fix, application, products; reduction and normalization with a bound on rounds and depth | mutual fixpoints, matches on indexed families, literals, primitives, reflection, native evaluation, quotients, eta and proof irrelevance in conversion; the inference of the second kernel for match and fix (its guard is modelled). FixSem is a specification: a call-by-value evaluation with environments that records recursive calls |
| crates/logicaffeine_system/src/ntt.rs:11-407, 672-800, 1106-1137 | the reductions, the scalar forward and inverse transforms, the base multiply, the AVX2 forward and inverse transforms with the intrinsics written out lane by lane, and the entry points over Int and Word16 | debug assertions, the LogosSeq wrapper, i32 wrap-around for arguments that no caller produces; the semantics of the AVX2 intrinsics is transcribed from their documentation |
| crates/logicaffeine_system/src/ntt.rs:416-612, 803-928, 963-1029 | compression, bit packing, centred binomial noise, rejection sampling from a stream and from blocks, the AVX2 block sampler with its shuffle table, and the Word16 forms | Keccak (the blocks are arbitrary), the four-way batching of mlkem_sample_matrix_w16, shifts by 64 or more, the zero padding that keeps the last vector load in bounds |
| crates/logicaffeine_base/src/describe.rs:1118-1246 | the fast Walsh-Hadamard transform, spectrum, best linear approximation, nonlinearity, correlation immunity, algebraic normal form, degree, autocorrelation | i64 overflow; the bias is a numerator and a denominator, not the floating point quotient |
| crates/logicaffeine_base/src/describe.rs:559-739 | Berlekamp-Massey over a field, replay, the GF(2) and GF(256) instances with their tables, bits and bytes, keystream detection; panics are None | usize overflow |
| crates/logicaffeine_base/src/describe.rs:751-890, 1858-1866 | 2-adic rational reconstruction, feedback-with-carry generation and detection, 2-adic complexity, maximal order complexity | BigInt is Z, bigint_bitlen by log2, the hash map of windows is an association list |
| crates/logicaffeine_base/src/describe.rs:906-1037, 1263-1386 | monomials, elimination over GF(2) with and without right-hand sides, algebraic recurrence detection, replay and complexity, annihilators, algebraic immunity and its verification | rows are lists of bits rather than 64-bit words; usize overflow |
| crates/logicaffeine_proof/src/inprocess.rs:14-87, 167-271 | resolution, variable elimination, bounded variable elimination, bucket elimination, vivification, with the emitted proof steps | equivalent_literal_scc (89-165); the two numeric bounds of bucket elimination are parameters |
| crates/logicaffeine_proof/src/modp.rs:1-317 | equations modulo p, Fermat inverse, elimination with provenance, refutation check, satisfaction test, solution space and its enumeration, circular system | u64 overflow (exact integers); recover_from_cnf (319-) |
| crates/logicaffeine_proof/src/linarith_solve.rs:1-186 | linear expressions, term parser with the decimal literal syntax, elimination with provenance, combination | i64 overflow (exact integers) |
| crates/logicaffeine_proof/src/coalgebra.rs:1-116 | transition systems, Kahn acyclicity test, countdown check, canonical measure, path | panics on malformed systems (precondition) |
| crates/logicaffeine_proof/src/proof_rewrite.rs:37-189, 246-264; trace_determinism.rs:27-74 | order closure, ideals, enabled steps, Euler characteristic, cube condition, linear extensions, permutations, operations, independence test, run, trace order | u64 width of masks, panics on cells outside the state, i64 overflow, the connectivity search (216-243) |
| crates/logicaffeine_proof/src/factor.rs:22-455 | gcd, inverse, power, roots, primality, next prime, factorization verifier, five factoring attacks, remainder theorem, broadcast, common-modulus and low-exponent attacks | floating-point seeds (parameters), u64 overflow of the trial divisor |
| crates/logicaffeine_proof/src/factor.rs:457-539 | polynomials modulo n, division, gcd, related-message attack (loops with fuel) | Coppersmith part (541 on) |
| crates/logicaffeine_proof/src/period.rs:26-165 | prime list, order reduction, baby and giant steps, splitting, factoring by orders | floating-point root of the bound (parameter), u64 overflow |
| crates/logicaffeine_proof/src/optimize.rs:27-58 | binary search over decision outcomes | the decision procedure (parameter), i64 overflow of the range width |
| crates/logicaffeine_proof/src/lll.rs:22-107 | dependency degree, certificate, resampling search | floating-point test (parameter), SplitMix64 (any bit stream), expected running time, panics on variables outside the range |
| crates/logicaffeine_proof/src/res_width.rs:25-157 | clause masks, resolution, closure, width search, certificate checker | set iteration order, the panic for variables of 63 and above |
| crates/logicaffeine_proof/src/counting_principle.rs:20-100 | recogniser, certificate, refuter | `u64` width, hash iteration order |
| crates/logicaffeine_proof/src/complexity.rs:18-80 | size bound, certification | the PR checker (its verdict is an input), `u64` overflow of the product (below 2^32 steps there is none) |
| crates/logicaffeine_proof/src/groupoid.rs:21-136, proof.rs:26-83 | action, union-find orbits, counts, group enumeration, stabiliser | `u32` width, out-of-range panics, `is_identity` and `extended` of permutations |
| crates/logicaffeine_proof/src/sym_dynamic.rs:28-140 | try_add, amplification, rounds, final check | CDCL solver and `find_generators` (arbitrary parameters), saturation of the budget, `u64` width of the conflict count |
| crates/logicaffeine_proof/src/sdcl.rs:24-193 | clause finder, discovery loop, certified solver, refuter | CDCL solver and `find_generators` (arbitrary parameters), iteration order of the hash set of relevant variables |
| crates/logicaffeine_proof/src/two_group.rs:17-113, kan_complex.rs:20-35 | group tables, inverse, cyclic, crossed modules, faces | `symmetric`, horn enumeration and fillers beyond degree 2, cohomology, out-of-range panics |
| crates/logicaffeine_proof/src/sos.rs:26-298 | lift, rows, elimination with caps, certificate checker (exact and modulo 2^128) | key order of the maps, `i64` overflow in the lift of very long clauses |
| crates/logicaffeine_proof/src/cofactor.rs:45-172, 300-313, 411-482, 653-764 | normal form, cofactor, distinct diagram with its memo, both checkers, twists, reductions | `quotient_dag`, `iso_canon`, `group_canon`, widths, structured leaves; panics on indices out of range |
| crates/logicaffeine_proof/src/postnikov.rs:21-89, 104-129 | indices, tuples, cochains, coboundary, cocycle and coboundary tests, cup product, Bockstein map | `cohomology_size`; panics on short tables and modulus 0 |
| crates/logicaffeine_proof/src/cubical.rs:18-70 | cubes, boundary faces, downward closure | progress complexes, ranks, Betti numbers, Euler characteristic; panic on a free axis beyond the corner |

## Findings: properties that are false of the code

Each line names the theorem that exhibits the counterexample.

* C05 `LWWRegister::merge` keeps its own value when timestamps are equal, so two replicas that wrote in the same microsecond never agree.
* C08 Remove-wins sets forget a removal when it reaches a replica through a third one, so replicas disagree for ever.
* C11 `DeltaBuffer` treats "not at most" as "greater", so it omits deltas for a peer with a concurrent version, and it evicts deltas without telling the peer.
* C12 Deltas of sets, maps and sequences carry additions only. Removals and in-place changes never reach a peer that only exchanges deltas.
* C04 Two contexts that have seen the same events can be structurally different after merging in different orders (the seen-set agrees).
* C10 An insert at an index past the end of a sequence goes to the head (`C10_rga_insert_past_end_goes_first`).
* C30 The Julian conversions use truncating division: before 1 March of year -4800 they produce invalid dates (`C30_julian_refuted`).
* C32 The logical part of a hybrid clock is a `u32` that overflows: a received stamp with the largest counter makes the next stamp earlier than the received one (`C32_counter_overflow_refuted`; a panic in a debug build).
* C33 A local time in a gap is resolved with the zone's extreme offsets, even if they have nothing to do with that gap (`C33_gap_refuted`).
* C47 `unix_nanos_from_civil` multiplies the day number by the nanoseconds of a day before adding the time of day. For instants in the first partial day of the `i64` range the product overflows although the result fits (`C47_intermediate_fits_refuted`).
* C35 The empty string is stored at index 0 but not in the lookup map: `lookup("")` is `None` and `intern("")` returns a symbol different from `Symbol::EMPTY` (`C35_empty_string_refuted`).
* C38 The 2-SAT solver skips a clause with a variable out of range, while the solution check treats it as false (`C38_out_of_range_refuted`).
* C39 The Horn solver treats a body variable out of range as true and ignores a head out of range, the checks do the opposite (`C39_body_out_of_range_refuted`, `C39_head_out_of_range_refuted`).
* C34 Indexing a text takes the byte at the index as the character when that byte is below 128, so after a multi-byte character it returns the wrong character (`C34_text_refuted`), and ranges and indices from the end are wrong as well (`C34_text_range_refuted`, `C34_text_from_end_refuted`).
* C45 A column past the end of a line is resolved to the start of the next line (`C45_past_line_end_refuted`).
* C46 `index * chunk_size` wraps in a release build, so a huge index returns the start of the file (`C46_huge_index_refuted`).
* C24 `read_uvarint` drops the surplus bits of the tenth byte instead of returning `None` as documented (`C24_overflow_refuted`).
* C25 A generated enum decoder ignores the type name and the number of arguments it reads (`C25_type_name_refuted`).
- **C29** `Decimal::mul` adds the two `u32` scales without a check. From a sum of 2^32 on it wraps in a release build (and panics in a debug build), so `10^-(2^31)` squared is 1 (`C29_scale_overflow_refuted`).
- **C51** `Complex::pow(i32::MIN)` negates the exponent, which is its own negation in a release build: on a nonzero number the recursion never ends (a debug build panics) (`C51_pow_least_refuted`).
- **C22** `fec::decode` takes the shard length from the first entry it is given; if that one is damaged, every good shard is skipped and the result is `None` although k distinct valid shards are present (`C22_short_first_refuted`).
- **C23** In `reconstruct_redundant` the first packet seen with a message id fixes `(k, n, orig_len)` for its group. A stray packet with a wrong header, or a shard truncated in transit, arriving first makes the message unrecoverable although all its shards arrive; the documentation says such shards are ignored (`C23_inconsistent_first_refuted`, `C23_truncated_first_refuted`). The length field has 32 bits, so a payload of 4 GiB or more comes back cut (`C23_long_payload_refuted`).
- **C13** `Persistent::mutate` takes any closure, but stores the new state as a delta to be merged. A change that does not only add (a reset, or lowering a value) is visible at once and gone after a restart (`C13_any_mutation_refuted`).
- **C14** `mount` ignores a torn tail but leaves it in the file, and later appends go behind it. They are acknowledged and then either silently lost or make the next mount fail with a checksum error (`C14_refuted`, `C14_behind_torn_lost`).
- **C15** Compaction copies the state, releases the lock, and later replaces the file. An append acknowledged in between is lost at the next mount (`C15_concurrent_refuted`).
- **C55** `NativeVfs::resolve` strips leading slashes and then leading `../`. `..//etc/passwd` becomes the absolute `/etc/passwd`, which `join` uses instead of the root, and `a/../../x` is not touched at all: both leave the root (`C55_inside_refuted`, `C55_middle_refuted`). `write` uses the name with extension `tmp` as temporary file, so writing `notes.json` destroys a file `notes.tmp` (`C55_write_only_refuted`).
- **C18, C19, C20, C21** A select naming the same channel twice registers the task twice, and only one registration is dropped when it is answered. The other one later delivers a message of that channel to whatever the task waits for then (`C18_from_channel_refuted`: a receive on channel 1 yields a message sent on channel 0), panics with "delivering channel must be one of the select arms" (`C19_no_panic_refuted`), or puts the task on the ready list twice, so that it is polled after its exit (`C19_ready_refuted`, `C21_exit_once_refuted`).
- **C21** A task that aborts itself is marked as ended and at once made ready again; it goes on, and its result is replaced (`C21_ended_refuted`).
- **C56** Due times are added in 64 bits without a check; with delays beyond 2^64 in all, a release build's clock goes backwards (`C56_forward_refuted`), a debug build panics.
- **C40, C41, C42** Names are given the indices -1000000, -1000001, … and are thereby identified with de Bruijn variables of these indices: `SVar (-1000000) <= SName "n"` is accepted as the first name interned is `n` (`C40_goal_refuted`, `C41_goal_refuted`, `C42_collision_refuted`).
- **C40** A constraint whose expression stores a zero coefficient (possible through the public fields) is never seen as constant, so its contradiction is missed (`C40_zero_coefficient_refuted`).
- **C41** omega.rs documents "`2x = 5` is unsatisfiable (no integer solution)". Coefficients are only divided by a common divisor of coefficients and constant, so this is not detected (`C41_complete_refuted`, `C41_goal_complete_refuted`). Elimination also forgets strictness: `x < 0`, `x > 0` passes as satisfiable when stated with strict constraints (`C41_strict_refuted`).
- **C43** cc.rs states "Goal `a = b` holds iff a and b are in the same equivalence class", but nodes inserted after a merge are not compared with existing ones: `a = b -> f a = c -> f b = c` is rejected, and accepted with the hypotheses swapped (`C43_complete_refuted`).
- **C58** The occurs check compares names only, so a variable and a bound name of the same text (`Var x`, `Bound x`) fail to unify although `x` could be instantiated (`C58_complete_refuted`). `apply_subst_to_term` follows bindings to the end, so a binding of a variable to itself recurses for ever (`C58_apply_refuted`); proof/src/simp.rs `instantiate_rule` and lemma_index.rs apply such one-binding maps `{parameter ↦ witness}`, so a goal mentioning a variable with the lemma's own parameter name overflows the stack.
- **C59** Composing two acyclic substitutions can give a cyclic one (`C59_cycle_refuted`), after which application does not end; where the second binds a variable bound by the first, the result is not "first, then second" (`C59_chain_refuted`).
- **C60** Expressions of unsupported forms do not even unify with themselves (`C60_reflexive_refuted`); a missing world annotation is accepted against any (`C60_world_refuted`); shadowed binders make alpha-equal expressions fail and different ones unify (`C60_alpha_refuted`, `C60_shadow_refuted`); the fresh constant standing for a bound variable can escape into the result (`C60_escape_refuted`); applying the result can capture variables (`C60_capture_refuted`).
- **C61** The documentation says that capture is rejected; a pattern variable first met outside a quantifier and again under one is compared literally, so a captured match is accepted (`C61_capture_refuted`). Temporal forms are compared literally, so a pattern variable bound elsewhere is left as it is inside them (`C61_temporal_refuted`).
- **C62** simp.rs says "The default fuel is 1000 simplification steps", meant "to prevent infinite loops from cyclic rewrites". The fuel bounds only the depth: `x = x + x -> x = 0` makes more than 2^333 calls (`C62_steps_refuted`), so the type checker hangs on it. The last hypothesis about a variable wins, so `x = 1 -> x = y -> x = 1` is refused (`C62_assumption_refuted`).
- **C63** discrimination.rs says that term and expression patterns never cross-match. Both kinds share the wildcard edge, so a bare-variable term pattern is a candidate for every expression and conversely (`C63_cross_refuted`).
- **C64** `solve_recurrence` computes `det_j % det_m` on `i128`; for the column 0, 4, -1, 6521908912666391104, -3260954456333195552, -6684258475328522460 this is the least `i128` by -1, which panics in every build profile (`C64_answers_refuted`), so a peer that sends this column crashes.
- **C66** describe.rs:2148 describes the guard as rejecting a count above `max_elements` "before any count-sized materialization (the small-message-huge-output guard for generator columns)". Frame-of-reference columns of width 0 and dictionary columns of index width 0 are not checked: 13 bytes decode to 2^64-1 values, i.e. an allocation failure (`C66_cap_refuted`, `C66_cap_dict_refuted`). Run-length columns are checked against 2^28 only, not against the caller's cap (`C66_cap_runs_refuted`).
- **C67** the i32 map truncates silently: keys 5 and 5 + 2^32 share an entry and the value 2^31 reads back as -2^31 (`C67_narrow_refuted`); its callers must prove ranges. **C68** the presence-free map answers `Some(0)` for absent keys and counts reinsertions in `len` (`C68_bare_refuted`).
- **C69** `atom_key` ignores the world of a predicate and gives every `Group` the key `<group>`, so P(a) at world w1 "entails" P(a) at w2, and a group equation "entails" a different one: the query is unsatisfiable although the entailment fails (`C69_world_refuted`, `C69_group_refuted`).
- **C70** the comment of `at_most` says that distinct constraints must use distinct prefixes. `exactly(.., "c")` introduces the atoms of prefix `c_ge`, so together with `at_most(.., "c_ge")` it rejects assignments that satisfy both counts (`C70_prefix_refuted`).
- **C72** `solve_gf2` chooses a mask for `n == 64`, but then shifts the right-hand side by 64: a debug build panics, a release build overwrites the coefficient of variable 0 (`C72_width_refuted`).
- **C73** `is_pr_indexed` is documented to return the verdict of `is_pr`. On a substitution shorter than the number of variables it indexes out of bounds, so a proof the plain checker rejects or accepts makes the fast one panic (`C73_fast_refuted`). `perm_is_automorphism` accepts maps that are not injective and so not automorphisms (`C73_automorphism_refuted`); proofs accepted with them are still sound (`C73_step_sound`).
- **C74** `saturate` clips coefficients to the degree also when it is negative, turning `z + w >= -1` into `-z - w >= -1`, which `is_contradiction` then reports as contradictory (`C74_saturate_refuted`). `refute_clausal` ("never a false true") ends with this test: it returns true for the satisfiable (a|b|c|z) & (a'|b'|c'|w) & ~(a&a') & ~(b&b') & ~(c&c') (`C74_refute_refuted`), and `prove_unsat` (sat.rs:267) and the solver's cutting-plane route report it as refuted.
- **C75** `is_hall_witness` counts a repeated item twice, so it accepts items [0, 0] for a feasible instance with one item and one slot (`C75_hall_refuted`). `assign_or_hall_capacitated` drops slots of capacity zero from its witness, which `is_cap_hall_witness` then rejects, although it is documented to accept what the solver returns (`C75_capacity_refuted`).
- **C76** `decide_pigeonhole_unsat` is documented to be exact on recognised formulas. A conjunct excluding an atom from itself, as in a & ~(a & a), is recognised and ignored, and the unsatisfiable formula is not decided (`C76_self_refuted`).
- **C77** `refutes_ordering_principle` clausifies through `Cnf`, whose atom keys ignore worlds, so it reports a formula with a model as refuted (`C77_formula_refuted`). `ordering_certificate` ("or None if there is none") misses a core when a positive clause that is not part of it comes first (`C77_complete_refuted`).
- **C78** `parity_cardinality::refute` is documented "Never a false refutation". Its solver drops variables beyond the declared count, so with one declared variable the satisfiable clauses (x0 or x5), (not x0 or not x5), (not x0) are refuted (`C78_sound_refuted`).
- **C79** Folding changes outcomes of well-typed programs: `7 * 1.0 / 2` becomes 3 (`C79_mixed_refuted`), `"a" + 0` becomes "a" (`C79_text_refuted`), a sequence times 0 becomes 0 (`C79_sequence_refuted`), NaN times 0 becomes 0 (`C79_nan_refuted`), `(1 // 0) * 0` loses its error (`C79_floor_refuted`), `x % 2 == 0` of a BigInt becomes an error (`C79_big_refuted`), an undefined variable times 0 becomes 0 (`C79_undefined_refuted`), -0.0 - -0.0 changes sign (`C79_negative_zero_refuted`).
- **C80** The folder removes `not not x` for symbols only ever written booleans, but misses the writes of Repeat loops and of functions and trusts parameter types the interpreter does not check (`C80_loop_refuted`, `C80_function_refuted`, `C80_parameter_refuted`). Unmodelled: folding `Return f(x) + 0` makes a tail call of it; `xs * 1` becomes an alias of `xs`.
- **C81** Dead code elimination changes outcomes: a branch of `If true` is spliced without its scope, so its Let overwrites an outer name (`C81_scope_refuted`); a store is dropped although a call in a Let or Show between reads it (`C81_call_refuted`), a Break or Return follows it (`C81_break_refuted`), the second Set is of a shadowing Let (`C81_shadow_refuted`), its value would have been an error (`C81_error_refuted`), or the statement reading it is one whose operands are not collected (`C81_unread_refuted`).
- **C82** Constant propagation uses a stale constant when a Repeat variable has the name of a constant (`C82_loop_refuted`), a name is bound again to something that is not a literal (`C82_rebound_refuted`), or a function sets the name (`C82_function_refuted`).
- **C83** The SSSE3 check of UUID digits folds case with `| 0x20`, so the control bytes 0x10-0x19 pass as the digits 0-9 in most positions on x86 and are rejected by the portable code (`C83_simd_refuted`). The urn prefix is matched only all lower or all upper (`C83_prefix_refuted`). v1 ids do not sort by time (`C83_v1_order_refuted`), v7 wraps after 2^48 ms (`C83_v7_wrap_refuted`), and an empty batch does not parse back (`C83_many_empty_refuted`).
- **C84** Converting there and back can lose money (`C84_lossless_refuted`), converting the parts of a sum can differ from converting the sum (`C84_split_refuted`), and currencies compare by code only, so amounts of different scales add (`C84_scale_refuted`).
- **C85** Exponent arithmetic overflows 32 bits silently in a release build: a wrong exponent (`C85_overflow_refuted`) or a panic on a denominator that wrapped to zero (`C85_overflow_panic_refuted`).
- **C86** Adding two temperatures in Celsius adds kelvins: 10 and 10 degrees make 293.15 (`C86_affine_sum_refuted`).
- **C87** In a release build a heap address of 2^48 or more loses its top bits (`C87_address_refuted`), and a Bool or Float changed in place is promoted to the heap and then not recognised by as_bool and as_float (`C87_change_refuted`).
- **C88** `Push v to s's items` changes the list of every structure s was copied from or to: push_to_struct_field does not copy on write (`C88_push_field_refuted`). So do Push and Set through an item of a shared list (`C88_place_refuted`).
- **C89** A universe variable whose name is another variable's followed by U+2726 collides with the fresh name of the case split and a false inequality is accepted (`C89_mark_refuted`). succ(Prop) is Type 1, two steps up, while succ(u) counts one: an accepted inequality fails at u := Prop (`C89_prop_refuted`); Prop <= u is accepted and fails at u := SProp (`C89_sprop_refuted`). The successor of Type 2^32-1 wraps to Type 0 in a release build (`C89_wrap_refuted`).
- **C90** types_equal renames the second term's binder to the first's, which is unsound when the first term binds that name again or the second has it free: `forall A A : Prop, A -> A` equals `forall P Q : Prop, P -> Q` (`C90_shadow_refuted`), `fun x => x` equals `fun y => x` (`C90_capture_refuted`); the eta rule captures in the same way (`C90_eta_refuted`). A hole equals everything (`C90_hole_refuted`) and a let nothing (`C90_let_refuted`).
- **C91** The kernel proves false. infer_type takes a variable's type from the context as it stands, also under a binder that hides a name in that type: `fun (A : Prop) (h : A) (A : Prop) => h` gets the type `forall A, A -> forall A, A` (`C91_capture_refuted`), so certificate::recheck accepts a proof of `forall A : Prop, A` (`C91_false_refuted`). With no hidden name in the term, the comparison of C90 still accepts a proof of `forall P Q, P -> Q` (`C91_compare_refuted`). verify.rs also runs double_check, which compares the types both checkers infer and so would find the first but not the second; certificate::recheck, the REPL and definitions do not.
- **C92** open_mutual opens the names of a mutual block one after the other with projections that are taken to be closed. whnf also meets blocks under binders: a variable from outside the block is then captured by one of the block's own names (`C92_mutual_refuted`). from_db names a fixpoint `rec0` where it is bound and `v0` where it is used, so the printed type does not read back (`C92_fix_name_refuted`) and double_check falls back to MainOnlyReCheckerIncomplete.
- **C93** double_check returns Agreed when both kernels reject the term (`C93_reject_refuted`), though Agreed is documented as both kernels accepting.
- **C94** The sweep of schedule_or_overflow leaves out tasks with start >= end, but greedy_assign places them. If no machine is free such a task goes to machine 0 and overwrites the time at which that machine becomes free, so a later task is run there beside a task that has not ended (`C94_empty_refuted`: [0,10), [0,6), [5,5), [6,7) on 2 machines). is_overflow_witness and is_spill_certificate do not ask that the listed tasks differ, so one task listed twice proves that one machine is not enough for it (`C94_witness_refuted`, `C94_spill_refuted`). is_valid_allocation counts the pairs but does not ask that their variables are those of the block (`C94_allocation_refuted`).
- **C95** resolve drops every literal on the pivot variable, so a clause that contains x and not x loses both. emit_drat_over_support then derives the empty clause from the satisfiable formula {x or not x, not x} (`C95_tautology_refuted`), although the file says that every line is RUP by construction. The checker rejects the line, so nothing unsound is accepted.
- **C96** The file says that a bad input gives an error, "never a quietly mangled formula". A header may declare more than 2^31 variables, and then `(v - 1) as u32` and the shift in Lit::new drop bits: variable 2147483649 is read as variable 1 (`C96_mangled_refuted`).
- **C98** Nothing checks that the type of a constructor ends in its inductive. `Inductive Oops := oops : False.` is accepted by the command that the file calls the trusted, user-facing registration path, and `oops` is then a closed term of type False (`C98_result_refuted`). The command may also name an inductive that exists, and adds to its constructors (`C98_again_refuted` gives False one), or a constructor that exists, whose first inductive then has a constructor of another type (`C98_steal_refuted`).
- **C98** The positivity check reads the type as written. A negative mention behind a definition (`C98_unfold_refuted`) or in a redex (`C98_redex_refuted`) is accepted, although type inference unfolds and reduces both.
- **C98** A refused Inductive command leaves the inductive, and the constructors before the refused one, in the context (`C98_refused_refuted`).
- **C99** The reflection recogniser checks the shape of the loop and of the recursive call but not how the available set is computed, nor which columns the entry starts from. A search that forgets one diagonal is halved and doubled all the same (`C99_available_refuted`: one solution becomes none), and an entry that starts from one column is counted twice (`C99_start_refuted`). The counted form returns 0 on a negative odd size before the pass and shifts by a negative amount after it (`C99_negative_refuted`).
- **C99** Value symmetry multiplies by the bound even when that is negative (`C99_bound_refuted`), does not compare the range of values of the entry with that of the search (`C99_ranges_refuted`), lets the previous value be compared with a literal (`C99_literal_refuted`), and makes the equality-only check on the parameter the guard compares with rather than the one the chosen value is passed to (`C99_position_refuted`).
- **C99** LEM5 fails for values outside the n-bit window (n = 1, v = 2); inside it all three identities hold for every width up to 62, so the argument beyond the checked 16 is right.
- **C100** Common subexpression elimination drops the cached values that were computed from an assigned variable, but not a value held in it: after `Let a be x + y. Set a to 0.` the next `x + y` is read from `a` (`C100_assigned_refuted`). The body of a loop is rewritten with the cache from before the loop, so `i + 1` inside it is replaced by the value of the first iteration even though the loop assigns `i`; only the cache for what follows the loop is cleaned (`C100_loop_refuted`). A second declaration of a name invalidates nothing (`C100_redeclared_refuted`).
- **C100** A subexpression that occurs twice behind a guard is computed in front of it: `x != 0 and (10 % x < 3 or 10 % x > 5)` fails for `x = 0` after the pass (`C100_guard_refuted`).
- **C100** Inlining does not check that a helper's body mentions only its parameters: a call that failed on an unknown name returns a value computed from the caller's variable (`C100_capture_refuted`).
- **C101** The FNV checksum of a checked message covers the body only. One flipped bit of the header byte makes the receiver accept the body under another codec or compression, or drop the check and deliver the checksum as part of the body (`C101_header_refuted`). The length is not covered: a body with hash zero may be extended by zero bytes (`C101_length_refuted`). `view_message` opens messages that the decoder refuses, which its comment says (`C101_view_refuted`). Nothing in the crates reads `Negotiated::peer_max_bytes`, so "stays under the receiver's size budget" is left to callers that do not exist.
- **C102** `decode_peer_profile` truncates the feature word to 32 bits instead of refusing a larger one (`C102_features_refuted`).
- **C103** The deframer treats an overlong length prefix as one that has not arrived: the connection is silent for good and the buffer keeps every later byte, although the comments promise a bounded buffer (`C103_stuck_refuted`). There is no bound on an announced length either (`C103_unbounded_refuted`).
- **C104** Two ways to a closed proof of False that both guards accept, each an endless reduction. (a) `check_match_cases_guarded` counts all products of the constructor type, parameters included, while a case of a parametric inductive binds the fields only. In a case that returns a function the arguments of that function are therefore marked smaller: with nothing but the prelude, `(fix f. fun h : And True True => match h return (fun _ => And True True -> False) with conj => fun p q z => f z z) pr pr` is a proof of False (`C104_params_refuted`). The comment in recheck.rs notices the difference in counts and peels anyway. (b) The rule for applied fields is justified by strict positivity, but a field of type `forall A : Prop, A -> A` is strictly positive and can be applied at the inductive itself, returning the whole argument (`C104_poly_refuted`).
- **C104** Reduction drops the leading sort-typed arguments of a constructor as parameters even when the inductive has none: a term of type Prop reduces to a function (`C104_box_refuted`). The types of the binders of a guarded case are not checked for recursive calls (`C104_annotation_refuted`), although the comments say that a recursive occurrence in a binder's type must not evade the check. The first guard resolves the scrutinee to the first binder of its name, the second to the right one (`C104_shadow_refuted`).
- **C105** `mlkemNtt` reduces any integer input, `mlkemBaseMul` and `mlkemInvNtt` do not: their range check is a debug_assert, so in a release build a coefficient outside i16 is truncated and another number is multiplied (`C105_unreduced_refuted`). The chain transform, base multiply, inverse has no left-over factor (the test only checks that the factor is uniform). `montgomery_reduce` at exactly 2^15 q returns q, the one point of the closed range where its result is not below q; no caller reaches it.
- **C106** `byteDecode` with width 0 panics with a division by zero (`C106_decode_zero_refuted`); `byteEncode` with a width of 59 silently loses bits of the 64-bit accumulator (`C106_encode_wide_refuted`); both are reachable from the language, which passes any Int as the width. Decoding with d = 12 is not injective: fields of 3329 and above are reduced, so `encode (decode b)` may differ from `b` (the modulus check of FIPS 203 is left to the caller).
- **C107** No defect found. `best_linear_approximation` returns the last of several best masks (Rust's `max_by_key`), so the mask reported for a tie depends on the order of the table; the theorem claims maximality only.
- **C108** The comment of `Gf256` names the reduction polynomial x^8+x^4+x^3+x^2+1, the code uses x^8+x^4+x^3+x+1 (0x1B), as AES does (`C108_gf256_field`). `lfsr_generate_field` panics when the seed is shorter than the taps and more elements are asked for (`C108_replay`). The final comparison of `detect_lfsr_bytes` can never fail (`C108_detect`).
- **C109** `two_adic_reconstruct` documents p/q ≡ Σ s_i 2^i (mod 2^n); this is false when an even common factor is cancelled (`C109_congruence_refuted`: 001 gives 0/1, which generates 000). The check of the denominator's parity after the cancellation comes too late to notice, and never fails; the regeneration check in `detect_fcsr_bytes` protects the compressor. The documented bound of the maximal order complexity by the 2-adic complexity is false (`C109_below_two_adic_refuted`: 0001).
- **C110** `verify_annihilator` does not compare the witness's number of variables with the size of the table, so a polynomial in a variable the table does not have is accepted with a degree below the immunity (`C110_verify_vars_refuted`), although the check is documented to confirm the claim independently. `algebraic_complexity` documents the number of coefficients M as its second result but returns the number of non-zero ones. The comparison after solving in `detect_algebraic_recurrence` can never fail (`C110_recurrence`).
- **C111** A clause containing both `x` and `¬x` is put on both sides of the elimination of `x` and resolved with itself. For the satisfiable formula `[[x, ¬x]]`, `eliminate_variable`, `bve` and `bucket_elimination_refute` derive the empty clause (`C111_eliminate_refuted`, `C111_bucket_refuted`), against the documented "verdict-invariant" and "every step is RUP". The emitted steps are rejected by the checker, but `solve_comprehensive` (solve.rs:355-363) answers Unsat from the presence of the empty clause without running the checker.
- **C112** A variable index at or beyond `num_vars` is silently dropped by `solve` and by `is_refutation`, while `satisfies` evaluates it: a solvable system is answered Unsat with a "valid" refutation (`C112_out_of_range_refuted`). A composite modulus (excluded by the documentation, not checked) makes `solve` return a point that fails `satisfies` (`C112_composite_refuted`).
- **C113** `find_farkas` relies on the documented invariant that zero coefficients are pruned; the fields are public, and for `{x: 0} + 1 <= 0` it reports no certificate (`C113_unpruned_refuted`). Every expression built by the parser and by `sub` meets the invariant (`C113_parse`, `C113_sub`).
- **C114** A successor index outside the state range is skipped by `is_well_founded`, so the system counts as well-founded and gets a canonical measure, but `is_countdown_morphism` rejects every measure for it (`C114_dangling_refuted`); the documented duality needs closed systems.
- **C115** The comment of `bernstein_independent` says two operations commute iff the conditions hold; they are sufficient (`C115_bernstein`) and exact for the cell sets (`C115_bernstein_exact`) but not necessary for given functions (`C115_bernstein_converse_refuted`).
- **C116** `mod_inverse` of a negative number can answer `None` although the inverse exists (`C116_mod_inverse_negative_refuted`: -1 modulo 5). The primality test accepts the composite 318665857834031151167461 (`C116_pseudoprime_refuted`), so `next_prime` is not always "the smallest prime" (`C116_next_prime_refuted`).
- **C117** The comment of `pollard_p_minus_1` ("any prime p whose p-1 is B-smooth") overstates it: with n = 391 and bound 2 the 2-smooth 17-1 is not enough (`C117_smooth_refuted`).
- **C118** `multiplicative_order` is documented to give `None` when the order exceeds `bound`, but searches up to the square of its step count (`C118_bound_refuted`: bound 2, order 4). Modulo 1 it returns a number that is not the order (`C118_modulus_one_refuted`). `factor_via_order` returns 2 for the prime 2 (`C118_even_prime_refuted`).
- **C119** `poly_rem_mod` loops for ever when the divisor is an invertible constant (`C119_unit_divisor`: the remainder always keeps one coefficient, and the loop asks for length 0), so `franklin_reiter_attack` hangs on ciphertexts that are not related (`C119_unrelated_refuted`: e = 3, n = 3233, 5^3 and 6^3 + 1). On related ones it terminates (`C119_related`).
- **C120** `minimal_certified` is true in every result (`C120_result`), also when feasibility is not monotone and the optimum is not the least (`C120_not_monotone_refuted`); the module asks callers for monotonicity.
- **C121** `lll_certifies_sat` takes the clause length as width, so repeated literals break it: `x or x or x` together with `not x or not x or not x` is certified satisfiable (`C121_repeated_refuted`), against "a certificate never lies". Without repeated variables it is sound (`C121_sound`, `C121_sound_real`).
- **C122** `min_res_width_clauses` says "`None` iff the formula is satisfiable"; this needs every variable to be below `num_vars`: `x` and `not x` with `num_vars = 0` gives `None` (`C122_undeclared_refuted`).
- **C124** the last comparison in `certify` can never fail (`C124_certify`).
- **C126** `group_elements` silently truncates at the cap; callers that multiply orbit and stabiliser sizes get a wrong group order then (`C126_capped_refuted`).
- **C128** `solve_certified` and `sdcl_refute` say that a certified solver must never return an unchecked proof, but the fallback `plain_cdcl_refutation` is returned without a check (`C128_fallback_refuted`); the verdict then rests on the solver. The witness uses a solver with right verdicts and an empty log of learned clauses, which the real solver is not known to produce.
- **C130** `sos_refutes(2, [[x3], [-x0]])` is true although the formula is satisfiable: the undeclared variable 3 shares its row index with the product of variables 0 and 1 (`C130_undeclared_refuted`); the checker rejects that certificate. The additions in `check_sos_certificate` are unchecked: built without overflow checks it accepts four multipliers 2^127 - 1 on the bounds of two variables for a formula with no clauses (`C130_wrapped_refuted`).
- **C131, C132** `check_distinct_dag` and `check_quotient_dag` do not look for cycles: a node that branches on a variable that does not occur may be its own child, and so a satisfiable formula is accepted (`C131_cycle_refuted`, `C132_cycle_refuted`). `check_quotient_dag` does not ask that a renaming is injective: the formula x1, x2 is accepted through a renaming to the literals x0 and not x0 (`C132_twist_refuted`). Both are sound with these two conditions, which the diagrams built by `distinct_cofactor_dag` meet.

## Print Assumptions

| Property | Theorems | Axioms |
|---|---|---|
| C01 | all 4 | none (closed under the global context) |
| C02 | all 5 | none (closed under the global context) |
| C03 | all 6 | none (closed under the global context) |
| C04 | all 5 | none (closed under the global context) |
| C05 | all 6 | none (closed under the global context) |
| C06 | all 5 | none (closed under the global context) |
| C07 | all 6 | none (closed under the global context) |
| C08 | all 4 | none (closed under the global context) |
| C09 | all 7 | none (closed under the global context) |
| C10 | all 11 | none (closed under the global context) |
| C11 | all 3 | none (closed under the global context) |
| C12 | all 14 | none (closed under the global context) |
| C13 | all 7 | none (closed under the global context) |
| C14 | all 4 | none (closed under the global context) |
| C15 | all 6 | none (closed under the global context) |
| C16 | all 4 | none (closed under the global context) |
| C17 | all 3 | none (closed under the global context) |
| C18 | all 4 | none (closed under the global context) |
| C19 | all 8 | none (closed under the global context) |
| C20 | all 3 | none (closed under the global context) |
| C21 | all 6 | none (closed under the global context) |
| C22 | all 7 | none (closed under the global context) |
| C23 | all 7 | none (closed under the global context) |
| C24 | all 8 | none (closed under the global context) |
| C25 | all 7 | none (closed under the global context) |
| C26 | all 7 | none (closed under the global context) |
| C27 | all 12 | none (closed under the global context) |
| C28 | all 15 | none (closed under the global context) |
| C29 | all 17 | none (closed under the global context) |
| C30 | all 8 | none (closed under the global context) |
| C31 | all 5 | none (closed under the global context) |
| C32 | all 4 | none (closed under the global context) |
| C33 | all 4 | none (closed under the global context) |
| C34 | all 9 | none (closed under the global context) |
| C35 | all 4 | none (closed under the global context) |
| C36 | all 5 | none (closed under the global context) |
| C37 | all 5 | none (closed under the global context) |
| C38 | all 7 | none (closed under the global context) |
| C39 | all 8 | none (closed under the global context) |
| C40 | all 6 | none (closed under the global context) |
| C41 | all 8 | none (closed under the global context) |
| C42 | all 5 | none (closed under the global context) |
| C43 | all 6 | none (closed under the global context) |
| C44 | all 1 | none (closed under the global context) |
| C45 | all 10 | none (closed under the global context) |
| C46 | all 4 | none (closed under the global context) |
| C47 | all 6 | none (closed under the global context) |
| C48 | all 3 | none (closed under the global context) |
| C49 | all 5 | none (closed under the global context) |
| C50 | all 4 | none (closed under the global context) |
| C51 | all 10 | none (closed under the global context) |
| C52 | all 9 | none (closed under the global context) |
| C53 | all 5 | none (closed under the global context) |
| C54 | all 3 | none (closed under the global context) |
| C55 | all 10 | none (closed under the global context) |
| C56 | all 4 | none (closed under the global context) |
| C57 | all 3 | none (closed under the global context) |
| C58 | all 7 | none (closed under the global context) |
| C59 | all 4 | none (closed under the global context) |
| C60 | all 13 | none (closed under the global context) |
| C61 | all 7 | none (closed under the global context) |
| C62 | all 7 | none (closed under the global context) |
| C63 | all 3 | none (closed under the global context) |
| C64 | all 9 | none (closed under the global context) |
| C65 | all 5 | none (closed under the global context) |
| C66 | all 7 | none (closed under the global context) |
| C67 | all 7 | none (closed under the global context) |
| C68 | all 4 | none (closed under the global context) |
| C69 | all 9 | none (closed under the global context) |
| C70 | all 8 | none (closed under the global context) |
| C71 | all 5 | none (closed under the global context) |
| C72 | all 4 | none (closed under the global context) |
| C73 | all 9 | none (closed under the global context) |
| C74 | all 19 | none (closed under the global context) |
| C75 | all 11 | none (closed under the global context) |
| C76 | all 7 | none (closed under the global context) |
| C77 | all 6 | none (closed under the global context) |
| C78 | all 6 | none (closed under the global context) |
| C79 | all 11 | `ClassicalDedekindReals.sig_forall_dec`, `ClassicalDedekindReals.sig_not_dec`, `Classical_Prop.classic`, `FunctionalExtensionality.functional_extensionality_dep` |
| C80 | `C80_fold`, `C80_program`, `C80_booleans`, `C80_loop_refuted`, `C80_function_refuted`, `C80_parameter_refuted` | `ClassicalDedekindReals.sig_forall_dec`, `ClassicalDedekindReals.sig_not_dec`, `Classical_Prop.classic`, `FunctionalExtensionality.functional_extensionality_dep` |
| C80 | `C80_collect` | none (closed under the global context) |
| C81 | `C81_eliminate`, `C81_depth`, `C81_inline`, `C81_scope_refuted`, `C81_call_refuted`, `C81_break_refuted`, `C81_shadow_refuted`, `C81_error_refuted`, `C81_unread_refuted` | `ClassicalDedekindReals.sig_forall_dec`, `ClassicalDedekindReals.sig_not_dec`, `Classical_Prop.classic`, `FunctionalExtensionality.functional_extensionality_dep` |
| C81 | `C81_stores`, `C81_kept` | none (closed under the global context) |
| C82 | all 6 | `ClassicalDedekindReals.sig_forall_dec`, `ClassicalDedekindReals.sig_not_dec`, `Classical_Prop.classic`, `FunctionalExtensionality.functional_extensionality_dep` |
| C83 | all 19 | none (closed under the global context) |
| C84 | all 16 | none (closed under the global context) |
| C85 | all 15 | none (closed under the global context) |
| C86 | all 9 | none (closed under the global context) |
| C87 | all 7 | none (closed under the global context) |
| C88 | all 5 | none (closed under the global context) |
| C89 | all 9 | none (closed under the global context) |
| C90 | all 11 | none (closed under the global context) |
| C91 | all 5 | none (closed under the global context) |
| C92 | all 8 | none (closed under the global context) |
| C93 | all 4 | none (closed under the global context) |
| C94 | all 13 | none (closed under the global context) |
| C95 | all 7 | none (closed under the global context) |
| C96 | all 8 | none (closed under the global context) |
| C97 | all 9 | none (closed under the global context) |
| C98 | all 13 | none (closed under the global context) |
| C99 | all 12 | none (closed under the global context) |
| C100 | all 9 | none (closed under the global context) |
| C101 | all 7 | none (closed under the global context) |
| C102 | all 9 | none (closed under the global context) |
| C103 | all 6 | none (closed under the global context) |
| C104 | all 8 | none (closed under the global context) |
| C105 | all 11 | none (closed under the global context) |
| C106 | all 15 | none (closed under the global context) |
| C107 | all 9 | none (closed under the global context) |
| C108 | all 8 | none (closed under the global context) |
| C109 | all 9 | none (closed under the global context) |
| C110 | all 10 | none (closed under the global context) |
| C111 | all 13 | none (closed under the global context) |
| C112 | all 9 | none (closed under the global context) |
| C113 | all 8 | none (closed under the global context) |
| C114 | all 6 | none (closed under the global context) |
| C115 | all 13 | none (closed under the global context) |
| C116 | all 12 | none (closed under the global context) |
| C117 | all 11 | none (closed under the global context) |
| C118 | all 8 | none (closed under the global context) |
| C119 | all 4 | none (closed under the global context) |
| C120 | all 3 | none (closed under the global context) |
| C121 | `C121_degree`, `C121_sound`, `C121_empty_clause`, `C121_witness`, `C121_resample_local` | none (closed under the global context) |
| C121 | `C121_sound_real` | `ClassicalDedekindReals.sig_forall_dec`, `ClassicalDedekindReals.sig_not_dec`, `Classical_Prop.classic`, `FunctionalExtensionality.functional_extensionality_dep` |
| C121 | `C121_repeated_refuted` | `ClassicalDedekindReals.sig_forall_dec`, `ClassicalDedekindReals.sig_not_dec`, `FunctionalExtensionality.functional_extensionality_dep` |
| C122 | all 9 | none (closed under the global context) |
| C123 | all 4 | none (closed under the global context) |
| C124 | all 3 | none (closed under the global context) |
| C125 | all 6 | none (closed under the global context) |
| C126 | all 4 | none (closed under the global context) |
| C127 | all 5 | none (closed under the global context) |
| C128 | all 5 | none (closed under the global context) |
| C129 | all 7 | none (closed under the global context) |
| C130 | all 8 | none (closed under the global context) |
| C131 | all 8 | none (closed under the global context) |
| C132 | all 9 | none (closed under the global context) |
| C133 | all 7 | none (closed under the global context) |
| C134 | all 6 | none (closed under the global context) |
