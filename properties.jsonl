{"id": "C01", "title": "Grow-only counter replicas converge and count every increment once", "statement": "Merging grow-only counters is commutative, associative and idempotent, merging never lowers any replica's contribution, and after any history of increments and merges a replica that has (transitively) received everyone's state reads exactly the sum of all increments performed.", "quantifier": "every set of replicas, every interleaving of increments and state deliveries, with duplication, reordering and loss", "why_tests_cant": "the property is about all delivery schedules; a test picks a few of infinitely many", "anchors": ["crates/logicaffeine_data/src/crdt/gcounter.rs: GCounter::increment, GCounter::value, Merge::merge"]}
{"id": "C02", "title": "Up/down counter replicas converge to increments minus decrements", "statement": "Merging up/down counters is commutative, associative and idempotent, and a replica that has received everyone's state reads total increments minus total decrements; shipping a delta to a peer at a given version leaves the peer exactly as if it had merged the whole state.", "quantifier": "every replica set, history of increments, decrements, merges and delta exchanges", "why_tests_cant": "quantifies over all histories and schedules", "anchors": ["crates/logicaffeine_data/src/crdt/pncounter.rs: PNCounter::increment, decrement, value, merge, delta_since, apply_delta"]}
{"id": "C03", "title": "Vector clocks form a join-semilattice ordered by domination", "statement": "Domination is reflexive and transitive, mutual domination means equal counters for every replica, merging two clocks yields the least clock dominating both, and two clocks are concurrent exactly when neither dominates the other.", "quantifier": "every pair/triple of clocks over arbitrary replica ids", "why_tests_cant": "infinite domain; order laws are universally quantified", "anchors": ["crates/logicaffeine_data/src/crdt/causal/vclock.rs: VClock::dominates, concurrent, merge_vclock"]}
{"id": "C04", "title": "Causal contexts remember exactly the events they were told", "statement": "After any sequence of issuing, adding out-of-order and merging, a causal context reports an event as seen iff it was issued, added or covered by the contexts merged in (no event is forgotten, none invented, compaction is invisible), and a freshly issued event was never seen before.", "quantifier": "every history of next/add/merge, in any order of arrival", "why_tests_cant": "depends on all arrival orders of gaps and compaction", "anchors": ["crates/logicaffeine_data/src/crdt/causal/context.rs: DotContext::next, add, merge, has_seen, compact"]}
{"id": "C05", "title": "Last-writer-wins registers converge", "statement": "Merging last-writer-wins registers is commutative, associative and idempotent, so replicas that have seen the same writes hold the same value, and the value held is one with the greatest timestamp.", "quantifier": "all register states, including equal timestamps", "why_tests_cant": "ties occur only under particular clock coincidences", "anchors": ["crates/logicaffeine_data/src/crdt/lww.rs: LWWRegister::merge, set"]}
{"id": "C06", "title": "Multi-value registers keep every concurrent write and drop every overwritten one", "statement": "After merging, a write survives iff it was held by one of the two replicas and no held write causally dominates it; merge result does not depend on order or repetition, and a local set overwrites everything it has seen.", "quantifier": "all register states and write histories", "why_tests_cant": "combinatorial in the causal histories", "anchors": ["crates/logicaffeine_data/src/crdt/mvregister.rs: MVRegister::set, merge, values"]}
{"id": "C07", "title": "Add-wins sets converge with observed-remove semantics", "statement": "For add-wins sets, merge is commutative, associative and idempotent on every reachable replica state; an element is present after merging iff some add of it is not covered by an observed removal; so an add concurrent with a remove survives and an observed add stays removed.", "quantifier": "every replica set and every history of add/remove/merge", "why_tests_cant": "all interleavings of concurrent adds/removes/merges", "anchors": ["crates/logicaffeine_data/src/crdt/orset.rs: ORSet<T,AddWins>::add, remove, contains, merge"]}
{"id": "C08", "title": "Remove-wins sets converge", "statement": "For remove-wins sets merging is commutative, associative and idempotent on reachable states, so replicas holding the same updates agree on membership.", "quantifier": "every replica set and history", "why_tests_cant": "a counterexample needs three replicas and a particular causal shape", "anchors": ["crates/logicaffeine_data/src/crdt/orset.rs: ORSet<T,RemoveWins>::merge"]}
{"id": "C09", "title": "Replicated maps converge on keys and values", "statement": "Merging observed-remove maps is commutative, associative and idempotent with respect to which keys are present and which value each key holds, given that the value type's own merge has those laws; a key insert concurrent with a removal survives.", "quantifier": "every pair/triple of map states, every key", "why_tests_cant": "infinite state space", "anchors": ["crates/logicaffeine_data/src/crdt/ormap.rs: ORMap::get_or_insert, remove, merge"]}
{"id": "C10", "title": "Replicated sequences show the same order everywhere", "statement": "Two replicas of a replicated sequence (RGA or YATA style) that hold the same set of insert and delete operations display the same list, whatever order the operations or merges arrived in; merging is commutative, associative and idempotent on what is displayed; each live element is displayed exactly once; deleted elements never reappear.", "quantifier": "every operation history and every merge order", "why_tests_cant": "ordering of concurrent inserts depends on all merge orders", "anchors": ["crates/logicaffeine_data/src/crdt/sequence/rga.rs: RGA::append, insert_before, insert_after, remove, to_vec, merge", "crates/logicaffeine_data/src/crdt/sequence/yata.rs: YATA::merge, to_vec"]}
{"id": "C11", "title": "A delta buffer that answers, answers completely", "statement": "When a delta buffer returns a list of deltas for a peer's version, that list contains every delta ever pushed that the peer's version does not cover; otherwise it refuses, so the peer falls back to a full state.", "quantifier": "every buffer size, push history and peer version", "why_tests_cant": "eviction interacts with concurrent versions", "anchors": ["crates/logicaffeine_data/src/crdt/delta_buffer.rs: DeltaBuffer::push, deltas_since"]}
{"id": "C12", "title": "Delta exchange equals full-state exchange", "statement": "If a peer at version v applies the delta computed for v, it ends in the same observable state as if it had merged the sender's full state.", "quantifier": "all pairs of replica states of the delta-capable types", "why_tests_cant": "only particular histories (removals, gaps) distinguish them", "anchors": ["crates/logicaffeine_data/src/crdt/orset.rs: ORSet::delta_since, apply_delta", "crates/logicaffeine_data/src/crdt/sequence/rga.rs: delta_since, apply_delta", "crates/logicaffeine_data/src/crdt/pncounter.rs: delta_since"]}
{"id": "C13", "title": "Journal recovery after a crash yields a prefix of the acknowledged writes", "statement": "Cutting a journal file at any byte and remounting yields exactly the state obtained by replaying some prefix of the journalled entries, which includes every entry wholly on disk; recovery never invents or reorders entries.", "quantifier": "every journal content and every crash (truncation) point", "why_tests_cant": "crash can happen at any byte of any journal", "anchors": ["crates/logicaffeine_system/src/storage/mod.rs: Persistent::mount, replay_journal, append_to_journal"]}
{"id": "C14", "title": "Writes acknowledged after a crash recovery stay recoverable", "statement": "After recovering from a torn tail, further acknowledged writes survive the next restart.", "quantifier": "every torn tail and every later write", "why_tests_cant": "needs a crash followed by further writes and another restart", "anchors": ["crates/logicaffeine_system/src/storage/mod.rs: Persistent::mount, mutate, replay_journal"]}
{"id": "C15", "title": "Journal compaction preserves the recovered state", "statement": "Compacting a journal leaves the state recovered by the next mount unchanged, and a crash in the middle of a compaction leaves either the old or the new journal.", "quantifier": "every state, journal and crash point", "why_tests_cant": "crash point is universally quantified", "anchors": ["crates/logicaffeine_system/src/storage/mod.rs: Persistent::compact, maybe_compact", "crates/logicaffeine_system/src/distributed.rs: Distributed::do_compact"]}
{"id": "C16", "title": "A recorded schedule replays identically", "statement": "Running a set of tasks with a recorded decision trace reproduces the same sequence of scheduling decisions, task results and channel contents, and a trace is never over- or under-consumed.", "quantifier": "every program, seed and policy", "why_tests_cant": "all seeds and all programs", "anchors": ["crates/logicaffeine_runtime/src/scheduler.rs: Scheduler::run_with_seed, run_with_trace", "crates/logicaffeine_runtime/src/seed.rs: Chooser::decide, SplitMix64"]}
{"id": "C17", "title": "Running in bounded slices equals running to the end", "statement": "Driving the scheduler in slices of any sizes leaves it in the same state as driving it in one go.", "quantifier": "every program state and every slicing", "why_tests_cant": "all slicings of all runs", "anchors": ["crates/logicaffeine_runtime/src/scheduler.rs: Scheduler::run, run_slice, poll_once"]}
{"id": "C18", "title": "Channels deliver each message once, in order, within capacity", "statement": "Under any scheduling policy, the messages received from a channel followed by those still buffered and those of blocked senders are exactly the messages sent, in the order sent; the buffer never exceeds the capacity; no message is lost or duplicated.", "quantifier": "every program, policy and schedule", "why_tests_cant": "schedules are unbounded", "anchors": ["crates/logicaffeine_runtime/src/scheduler.rs: do_send, do_recv, refill_from_blocked_sender, deliver_to_receiver", "crates/logicaffeine_runtime/src/channel.rs: Chan"]}
{"id": "C19", "title": "Deadlock is reported exactly when nothing can run", "statement": "The scheduler reports a deadlock only when no task is runnable and no timer is pending while some task is unfinished; every task in the ready list is in the ready state, and blocked tasks are registered with the channel, timer or task they wait for (no lost wake-up).", "quantifier": "every reachable scheduler state", "why_tests_cant": "lost wake-ups occur in rare interleavings", "anchors": ["crates/logicaffeine_runtime/src/scheduler.rs: Scheduler::poll_once, advance_timers, complete_task"]}
{"id": "C20", "title": "A select completes with exactly one arm", "statement": "A task waiting on several channels and timers resumes exactly once, through one arm, and afterwards is registered on no channel or timer for that wait.", "quantifier": "every set of arms and every schedule", "why_tests_cant": "stale registrations show only under particular arrival orders", "anchors": ["crates/logicaffeine_runtime/src/scheduler.rs: do_select, take_one, cancel_select_registrations, deliver_to_receiver"]}
{"id": "C21", "title": "Awaiting a task yields its result", "statement": "A task that awaits another resumes with that task's result whether the target had finished before or after the await; an aborted task never runs again.", "quantifier": "every program and schedule", "why_tests_cant": "ordering of finish/await/abort is schedule dependent", "anchors": ["crates/logicaffeine_runtime/src/scheduler.rs: do_await, complete_task, do_abort"]}
{"id": "C22", "title": "Any k of n shards recover the message", "statement": "A message encoded into n shards with k data shards is reconstructed exactly from any k shards with distinct indices, in any order, for all admissible k and n.", "quantifier": "every message, every k<=n<=256, every k-subset of shards", "why_tests_cant": "number of subsets is astronomically large; needs invertibility of every k-row submatrix", "anchors": ["crates/logicaffeine_compile/src/concurrency/fec.rs: encode, decode, encode_matrix, invert, gf tables"]}
{"id": "C23", "title": "Self-describing shards reassemble messages despite loss, reordering and duplication", "statement": "Given framed shards of any number of messages (distinct message ids, payloads below 4 GiB), interleaved, reordered, duplicated, partly lost and mixed with packets that are not shards, reconstruct_redundant returns the exact payload and id of a message of which at least k distinct shards arrived, and returns None only if there is no such message, whatever order the hash map is visited in. The header of every framed shard survives framing exactly.", "quantifier": "every message set and every arrival multiset", "why_tests_cant": "arrival patterns are unbounded", "anchors": ["crates/logicaffeine_compile/src/concurrency/fec.rs: frame_redundant, reconstruct_redundant, shard_header"]}
{"id": "C24", "title": "Variable-length integers round-trip and are self-delimiting", "statement": "Encoding any unsigned 64-bit number and decoding it returns the number and the exact rest of the input; signed numbers round-trip through the zig-zag map; decoding never reads past the encoding and truncated input is refused.", "quantifier": "all u64/i64 values and all following bytes", "why_tests_cant": "2^64 values times arbitrary suffixes", "anchors": ["crates/logicaffeine_data/src/wire.rs: write_uvarint, read_uvarint, zigzag, unzigzag"]}
{"id": "C25", "title": "Wire values round-trip", "statement": "Encoding any value (integers, booleans, texts, nested lists) and decoding it returns an equal value and leaves the rest of the input; two values with the same encoding are equal; a strict prefix of an encoding is refused.", "quantifier": "every nested value and every suffix", "why_tests_cant": "infinite recursive domain", "anchors": ["crates/logicaffeine_data/src/wire.rs: WireEncode/WireDecode impls"]}
{"id": "C26", "title": "Big integers compute exactly", "statement": "Addition, subtraction, multiplication, truncated division with remainder, power, comparison and sign operations on arbitrary-precision integers give the mathematically exact results for all operands, whatever the number of limbs.", "quantifier": "all integers", "why_tests_cant": "carries/borrows across limbs occur in rare patterns", "anchors": ["crates/logicaffeine_base/src/numeric.rs: BigInt::add, sub, mul, div_rem, pow, cmp, mag_*"]}
{"id": "C27", "title": "Big integers have one representation per value", "statement": "Every operation returns a canonical big integer, so two results are structurally equal (and hash equally) iff they denote the same number; narrowing to 64 bits succeeds iff the value fits and is then exact; byte serialization and decimal text round-trip.", "quantifier": "all integers, all byte strings and all decimal texts", "why_tests_cant": "representation invariants over unbounded values", "anchors": ["crates/logicaffeine_base/src/numeric.rs: Mag::from_vec, from_sign_mag, to_i64, to_le_bytes, from_le_bytes, parse_decimal, Display"]}
{"id": "C28", "title": "Rationals are exact, canonical fractions", "statement": "Every rational operation returns a fraction in lowest terms with positive denominator whose value is exactly the mathematical result; equality is value equality; ordering is the order of values; floor, ceiling and rounding are the mathematical ones; division by zero is refused and nothing else is.", "quantifier": "all fractions", "why_tests_cant": "infinite domain", "anchors": ["crates/logicaffeine_base/src/numeric.rs: Rational::new, add, sub, mul, div, pow, floor, ceil, round, cmp"]}
{"id": "C29", "title": "Fixed-point rounding obeys its mode", "statement": "Rescaling or dividing a fixed-point decimal yields a value at the requested scale that differs from the exact one by less than one unit in the last place, in the direction (or to the neighbour) the rounding mode prescribes; addition, subtraction and multiplication are exact; equality and order are by value.", "quantifier": "all decimals, scales and modes", "why_tests_cant": "ties and signs combine for infinitely many values", "anchors": ["crates/logicaffeine_base/src/numeric.rs: Decimal::rescale, div, add, sub, mul, round_rational_to_bigint"]}
{"id": "C30", "title": "Calendar conversions are bijective", "statement": "Converting a day number to a civil date and back (Gregorian and Julian) is the identity, and converting a valid civil date to a day number and back is the identity; consecutive day numbers are consecutive dates; results are always valid dates.", "quantifier": "all day numbers and all valid dates", "why_tests_cant": "unbounded years; leap rules interact with era arithmetic", "anchors": ["crates/logicaffeine_base/src/temporal.rs: days_from_civil, civil_from_days, last_day_of_month, days_from_julian, julian_from_days"]}
{"id": "C31", "title": "ISO week and weekday arithmetic is consistent", "statement": "Weekday numbering advances by one per day, ISO week-date conversion round-trips for every day number, and business-day addition/counting agrees with stepping day by day.", "quantifier": "all day numbers", "why_tests_cant": "year-boundary cases are unbounded", "anchors": ["crates/logicaffeine_base/src/temporal.rs: weekday_from_days, iso_week_from_days, days_from_iso_week, add_business_days, business_days_between"]}
{"id": "C32", "title": "Hybrid clocks never run backwards and respect causality", "statement": "Ticking a hybrid logical clock gives a strictly later stamp whatever the wall clock does, receiving gives a stamp later than both the local and the received one, and the physical part never falls behind the wall clock.", "quantifier": "all clock states, remote stamps and wall-clock readings", "why_tests_cant": "wall clocks may jump arbitrarily", "anchors": ["crates/logicaffeine_base/src/temporal.rs: Hlc::tick, Hlc::recv"]}
{"id": "C33", "title": "Zone conversion inverts on unambiguous local times", "statement": "Converting an instant to local time and back gives the instant except in overlaps, where the chosen fold selects one of the two instants, and gaps are resolved consistently.", "quantifier": "all instants and sorted transition tables", "why_tests_cant": "depends on position relative to every transition", "anchors": ["crates/logicaffeine_base/src/temporal.rs: offset_at, to_local, from_local"]}
{"id": "C34", "title": "One-based indexing addresses exactly the intended element", "statement": "Index i from the front addresses the i-th element, a negative index counts from the end, zero and out-of-range indices are refused; for text the unit is the character.", "quantifier": "all sequences/texts and all indices", "why_tests_cant": "multi-byte characters shift byte and character positions", "anchors": ["crates/logicaffeine_data/src/indexing.rs: resolve_logos_index, LogosIndex for String"]}
{"id": "C35", "title": "Interned symbols identify strings", "statement": "Interning is stable (same string, same symbol), injective (different strings, different symbols) and resolving a symbol gives back its string, after any history of interning.", "quantifier": "all interning histories", "why_tests_cant": "histories are unbounded; the empty string is special", "anchors": ["crates/logicaffeine_base/src/intern.rs: Interner::new, intern, resolve, lookup"]}
{"id": "C36", "title": "Union-find computes the generated equivalence", "statement": "After any sequence of unions and lookups two elements have the same representative iff they are connected by the requested unions; path compression and ranks never change the classes.", "quantifier": "all sequences of operations", "why_tests_cant": "histories unbounded", "anchors": ["crates/logicaffeine_base/src/union_find.rs: UnionFind::make_set, find, union"]}
{"id": "C37", "title": "Accepted RUP refutations imply unsatisfiability", "statement": "If the RUP checker accepts a refutation of a clause set, no assignment satisfies the clause set; a single accepted RUP step is a logical consequence.", "quantifier": "all clause sets and proofs", "why_tests_cant": "soundness is over all assignments", "anchors": ["crates/logicaffeine_proof/src/rup.rs: check_refutation, is_rup"]}
{"id": "C38", "title": "2-SAT is decided correctly", "statement": "The 2-SAT solver returns an assignment that satisfies all clauses whenever it answers satisfiable, and answers unsatisfiable only when no assignment exists; its refutation certificates check exactly when valid.", "quantifier": "all 2-CNF instances", "why_tests_cant": "exponentially many assignments, unbounded instances", "anchors": ["crates/logicaffeine_proof/src/twosat.rs: solve, is_refutation"]}
{"id": "C39", "title": "Horn satisfiability is decided correctly", "statement": "The Horn solver's answer satisfiable comes with the least model; unsatisfiable is answered only if no assignment satisfies the clauses.", "quantifier": "all Horn instances", "why_tests_cant": "all assignments and instances", "anchors": ["crates/logicaffeine_proof/src/hornsat.rs: solve, satisfies, derivation"]}
{"id": "C40", "title": "Linear arithmetic verdicts are sound and complete over the rationals", "statement": "The Fourier-Motzkin procedure answers unsatisfiable exactly when the given system of strict and non-strict linear constraints has no rational solution; consequently a goal it proves holds for all integers.", "quantifier": "all constraint systems and all assignments", "why_tests_cant": "universally quantified over assignments and systems", "anchors": ["crates/logicaffeine_kernel/src/lia.rs: fourier_motzkin_unsat, eliminate_variable, goal_to_negated_constraint"]}
{"id": "C41", "title": "Integer arithmetic verdicts are sound", "statement": "If the integer decision procedure declares a constraint system unsatisfiable then no integer assignment satisfies it.", "quantifier": "all systems and integer assignments", "why_tests_cant": "all assignments", "anchors": ["crates/logicaffeine_kernel/src/omega.rs: omega_unsat"]}
{"id": "C42", "title": "Ring normalisation decides polynomial identities", "statement": "Two expressions normalise to the same polynomial iff they are equal for all integer assignments of the variables.", "quantifier": "all expressions and assignments", "why_tests_cant": "infinitely many assignments", "anchors": ["crates/logicaffeine_kernel/src/ring.rs: Polynomial::add, mul, canonical_eq, reify"]}
{"id": "C43", "title": "Congruence closure is sound", "statement": "If congruence closure reports two terms equal, they are equal in every model of the asserted equations.", "quantifier": "all hypothesis sets and models", "why_tests_cant": "all models", "anchors": ["crates/logicaffeine_kernel/src/cc.rs: CongruenceClosure::merge, are_equal"]}
{"id": "C44", "title": "Strength-reduced division is exact", "statement": "Dividing or taking the remainder with a precomputed divisor gives the same result as hardware division for every dividend and every positive divisor.", "quantifier": "all 2^64 x (2^64-1) operand pairs", "why_tests_cant": "too many pairs to enumerate; off-by-one in the magic number shows on few inputs", "anchors": ["crates/logicaffeine_data/src/types.rs: LogosDivU64::new, div, rem"]}
{"id": "C45", "title": "Editor positions and byte offsets convert back and forth", "statement": "For every character boundary of every text, converting the byte offset to an editor position and back returns the same offset; positions are monotone in the offset; out-of-range positions clamp.", "quantifier": "all texts and offsets", "why_tests_cant": "surrogate pairs, line ends and multi-byte characters combine arbitrarily", "anchors": ["crates/logicaffeine_lsp/src/line_index.rs: LineIndex::position, offset"]}
{"id": "C46", "title": "Chunked transfer reassembles the file", "statement": "For every file content and positive chunk size the chunks in order concatenate to the file, every chunk but the last has the full size and the reported count is the number of non-empty chunks.", "quantifier": "all contents and sizes", "why_tests_cant": "boundary arithmetic over all sizes", "anchors": ["crates/logicaffeine_system/src/network/sipping.rs: FileSipper::chunk_count, get_chunk, get_zone"]}
{"id": "C47", "title": "Date-times and calendar spans are exact", "statement": "Converting a UTC instant to calendar fields and back is the identity and the fields are valid; adding months keeps the time of day, moves the month count exactly and clamps the day to the month's length, adding days moves the day number exactly; the months between two instants are the largest number that can be added to the first without passing the second.", "quantifier": "all instants, valid date-times and spans", "why_tests_cant": "month lengths, leap years and negative instants combine arbitrarily", "anchors": ["crates/logicaffeine_base/src/temporal.rs: civil_from_unix_nanos, unix_nanos_from_civil, add_span, months_between"]}
{"id": "C48", "title": "Leap-second time scales convert back exactly", "statement": "Converting Unix time to atomic time (seconds) or terrestrial time (nanoseconds) and back is the identity for every instant, and atomic time is strictly increasing in Unix time with at most one inserted second per step.", "quantifier": "all instants", "why_tests_cant": "27 irregular boundaries, each with a handful of critical seconds", "anchors": ["crates/logicaffeine_base/src/temporal.rs: tai_minus_utc, unix_to_tai_seconds, tai_to_unix_seconds, tt_nanos_from_unix_nanos, unix_nanos_from_tt_nanos"]}
{"id": "C49", "title": "Clock-knowledge replicas merge conflict-free", "statement": "Merging two sync clocks is commutative, associative and idempotent; merged bounds about a node's time only narrow and stay true if the merged ones were true; the merged stamp is the later of the two; an observation equals merging in a clock that knows only that bound.", "quantifier": "all clock states", "why_tests_cant": "all states and merge orders", "anchors": ["crates/logicaffeine_base/src/temporal.rs: SyncClock::merge, observe, EstimateInterval::intersect"]}
{"id": "C50", "title": "Named zones apply daylight saving exactly between the rule dates", "statement": "The n-th weekday of a month is the right weekday in the right week (5 meaning last), and a zone's local time uses the summer offset exactly while the most recent clock change was a spring change, for every instant and every registered zone.", "quantifier": "all years, rules and instants", "why_tests_cant": "transitions around new year, southern zones and boundary seconds", "anchors": ["crates/logicaffeine_base/src/temporal.rs: nth_weekday_of_month, dst_transitions_for_year, ZoneSpec::transitions, ZoneSpec::to_local, zone_by_name"]}
{"id": "C51", "title": "Complex arithmetic is exact", "statement": "Sums, differences, products, conjugates, norms, inverses and quotients of exact complex numbers are exactly the mathematical ones; inverse and quotient are refused only for zero; powers for every i32 exponent equal repeated multiplication (by the inverse for negative exponents); equality means equal value; and the printed form is read back as the same number.", "quantifier": "all complex numbers with rational parts, all exponents", "why_tests_cant": "unbounded numerators and denominators, 2^32 exponents", "anchors": ["crates/logicaffeine_base/src/numeric.rs: Complex::add, sub, mul, recip, div, pow, parse, Display"]}
{"id": "C52", "title": "Residue arithmetic is exact for any modulus", "statement": "A residue is built exactly for positive moduli and always holds the least nonnegative representative; sums, differences, products and powers are the integer results reduced, refused exactly on different moduli; the inverse is found exactly when one exists and is the unique one; division undoes multiplication.", "quantifier": "all big-integer values and moduli, all u64 exponents", "why_tests_cant": "unbounded moduli; termination of extended Euclid", "anchors": ["crates/logicaffeine_base/src/numeric.rs: Modular::new, add, sub, mul, negated, pow, inverse, div, bigint_egcd"]}
{"id": "C53", "title": "Comparing floats with integers and fractions is exact", "statement": "Every finite float is converted to exactly the fraction it stands for, and comparing an i64, a big integer or a fraction with a float gives the order of the two mathematical values, unordered exactly for NaN, with infinities at the ends; no comparison panics.", "quantifier": "all 2^64 float patterns, all integers and fractions", "why_tests_cant": "2^128 pairs, rounding of large integers, subnormals", "anchors": ["crates/logicaffeine_base/src/numeric.rs: decompose_f64, rational_from_f64_exact, cmp_i64_f64_exact, cmp_bigint_f64_exact, cmp_rational_f64_exact"]}
{"id": "C54", "title": "Numerically equal values of different types hash alike", "statement": "For any two numbers, each an i64, a big integer, a finite float or a fraction, equal mathematical values give equal numeric hashes; integers hash to their residue modulo 2^61-1.", "quantifier": "all pairs of numbers of the four types", "why_tests_cant": "hash coherence over unbounded values and all float exponents", "anchors": ["crates/logicaffeine_base/src/numeric.rs: mod_p, mul_mod_p, pow_mod_p, numeric_hash_i64, numeric_hash_bigint, numeric_hash_f64, numeric_hash_rational"]}
{"id": "C55", "title": "Names given to the file store stay inside its root", "statement": "Every path given to the native file store is resolved to a place under its root directory; what is written is read back, appending extends the file, and no operation touches a file other than the one named.", "quantifier": "every root and every path text", "why_tests_cant": "path traversal needs an adversarial choice of path", "anchors": ["crates/logicaffeine_system/src/fs/mod.rs: NativeVfs::resolve, read, write, append"]}
{"id": "C56", "title": "Virtual time is exact and never runs backwards", "statement": "A sleep or select timeout is due exactly the requested time after the request; time advances only when no task can run, and then to the earliest due time; exactly the tasks due then become ready and their other registrations are dropped; while all delays requested add up to less than 2^64 ns time never runs backwards and no timer lies in the past.", "quantifier": "every program and schedule (selects naming a channel once, no task aborting itself)", "why_tests_cant": "all interleavings of sleeps, selects and messages", "anchors": ["crates/logicaffeine_runtime/src/scheduler.rs: advance_timers, do_select, process_step, purge_timers"]}
{"id": "C57", "title": "The scheduling policy is kept and Fifo starves nobody", "statement": "Fifo and RoundRobin poll the task longest ready, Lifo the one made ready last, Priority a task of the highest priority among the ready ones and the longest ready of these; under Fifo and RoundRobin a task with n others before it is polled within n+1 polls unless one of those aborts it.", "quantifier": "every program, state and host behaviour", "why_tests_cant": "starvation shows only in unbounded runs", "anchors": ["crates/logicaffeine_runtime/src/scheduler.rs: pick_ready, mark_ready, do_abort"]}
{"id": "C58", "title": "Term unification finds a most general unifier", "statement": "Unifying two first-order terms always ends; a returned substitution makes both terms equal after application, mentions only their variables, and every other unifier is an instance of it; if the terms have any unifier (bound names taken as constants) one is returned.", "quantifier": "all terms, including shared and repeated variables", "why_tests_cant": "occurs-check and chained bindings need adversarial terms; generality quantifies over all unifiers", "anchors": ["crates/logicaffeine_proof/src/unify.rs: unify_terms, unify_term_with_subst, occurs, apply_subst_to_term"]}
{"id": "C59", "title": "Composing substitutions means applying one after the other", "statement": "Applying the composition of two substitutions to a term gives what applying the first and then the second gives, provided both can be applied and the second mentions no variable bound by the first; composing with a unifier of two instantiated terms unifies the terms themselves.", "quantifier": "all substitutions and terms", "why_tests_cant": "all pairs of substitutions, chains and cycles of bindings", "anchors": ["crates/logicaffeine_proof/src/unify.rs: compose_substitutions, apply_subst_to_term"]}
{"id": "C60", "title": "Expression unification is sound, and most general without quantifiers", "statement": "Unifying two logical expressions always ends; without quantifiers a returned substitution makes them the same up to world annotations, and is most general, and one is returned if any exists; with quantifiers that do not shadow each other the unified expressions are equal up to renaming bound variables (hence true in the same structures); alpha-equal expressions unify without bindings.", "quantifier": "all expressions and structures", "why_tests_cant": "all nestings of binders, renamings and structures", "anchors": ["crates/logicaffeine_proof/src/unify.rs: unify_exprs, unify_expr_with_subst, apply_subst_to_expr"]}
{"id": "C61", "title": "One-sided matching instantiates only the pattern", "statement": "Matching a pattern term or expression against a goal succeeds exactly when some instance of the pattern (substituting its variables) is the goal, the substitution found is that unique one, and the goal's own variables are never bound; an instance has the meaning of the pattern in the adjusted valuation.", "quantifier": "all patterns and goals", "why_tests_cant": "repeated variables and binders combine arbitrarily", "anchors": ["crates/logicaffeine_proof/src/unify.rs: match_term_pattern, match_expr_pattern"]}
{"id": "C62", "title": "The kernel simplifier only accepts goals that follow", "statement": "A goal accepted by the simplifier is an implication chain ending in an equation which holds wherever the hypothesis equations hold and arithmetic on literals is i64 arithmetic; reflexive equations are accepted; arithmetic over literals and once-defined variables nested at most 1000 deep is decided.", "quantifier": "all goal terms, interpretations and valuations", "why_tests_cant": "all interpretations of the free symbols; cyclic and repeated hypotheses", "anchors": ["crates/logicaffeine_kernel/src/simp.rs: check_goal, decompose_goal, simplify_sterm, try_arithmetic"]}
{"id": "C63", "title": "The discrimination tree never misses a matching rule", "statement": "The candidates returned for a goal are exactly the inserted patterns (with multiplicity) whose shape may match it, whatever the order of insertion; in particular every inserted pattern that matches the goal is among them.", "quantifier": "all sequences of insertions and all goals", "why_tests_cant": "all tree shapes and skip distances", "anchors": ["crates/logicaffeine_proof/src/discrimination.rs: DiscriminationTree::insert, candidates, retrieve, skip_subterm"]}
{"id": "C64", "title": "An integer column decodes to itself and never grows", "statement": "Describing a column of i64 values and decoding the bytes gives the column back, alone or inside a message; descriptions of different columns differ and none is a prefix of another; a description is never longer than the plain varint column; an arithmetic progression of any length takes at most 31 bytes, a column with c changes at most 31+20c, a column in a window of 2^w at most 22 bytes and w bits per value; the encoder always answers.", "quantifier": "every i64 column up to 2^28 values, every trailing bytes and cap", "why_tests_cant": "the encoder competes fifteen schemes; a wrong winner shows only on columns of its own kind", "anchors": ["crates/logicaffeine_base/src/describe.rs: describe_int_seq, emit_best_int_column, decode_int_seq, decode_int_column_body, bitpack, bitunpack"]}
{"id": "C65", "title": "Column generators travel exactly and are safe to run", "statement": "A generator expression of at most 256 nodes and 33 levels is read back exactly from its bytes and any other is refused; whatever bytes arrive, an accepted generator is within these limits, evaluates to an i64 at every index, and depends only on the bytes it occupies; a generator found for a column reproduces it at every index.", "quantifier": "every expression tree, byte string and index", "why_tests_cant": "all trees and all hostile byte strings", "anchors": ["crates/logicaffeine_base/src/describe.rs: serialize_gen, deserialize_gen, gen_eval, detect_modular_affine"]}
{"id": "C66", "title": "A decoded integer column is bounded and well typed", "statement": "Decoding reads a prefix of the bytes and hands the rest back untouched; every decoded value is an i64; the number of values is at most the caller's cap, whatever bytes arrive; blocks nest at most 32 deep.", "quantifier": "every byte string, tag, cap and depth", "why_tests_cant": "hostile byte strings are unbounded in number", "anchors": ["crates/logicaffeine_base/src/describe.rs: decode_int_column_body, bounded, bitunpack"]}
{"id": "C67", "title": "The integer hash tables are finite maps and sets", "statement": "After any inserts into a new integer map or set of any capacity, every lookup ends without leaving the table and returns the last value inserted for its key (or none), contains agrees, len is the number of distinct keys; the invariant that the code tells the optimiser to assume unchecked holds whenever it is assumed, and at most three quarters of the slots are taken; a map made with capacity n is not reallocated by n keys; the i32 variants do the same on i32 keys and values.", "quantifier": "all sequences of inserts, all i64 keys and values, all capacities", "why_tests_cant": "probe cycles, collisions and growth depend on the whole insertion history; unchecked assumptions are undefined behaviour", "anchors": ["crates/logicaffeine_data/src/types.rs: LogosI64Map, LogosI64Set, LogosI32Map, LogosI32Set"]}
{"id": "C68", "title": "The dense integer tables are finite maps and sets inside their window", "statement": "After any inserts of keys inside the window a direct-addressed map or set was made for, lookups and membership inside the window agree with the finite map of those inserts, no index is out of bounds, and len is the number of distinct keys; without presence bits this holds for lookups of inserted keys.", "quantifier": "all windows up to 2^63 slots, all sequences of inserts inside", "why_tests_cant": "all windows, word boundaries and reinsertion orders", "anchors": ["crates/logicaffeine_data/src/types.rs: LogosDenseI64Map, LogosDenseI64MapNoPresence, LogosDenseI64Set"]}
{"id": "C69", "title": "Clausification preserves the models of the premises", "statement": "Clausifying quantifier-free premises gives clauses whose every solution, decoded atom by atom, makes all premises true, and every interpretation making them true is decoded from some solution; the entailment query is unsatisfiable exactly when the premises entail the goal, so a refutation accepted by the checker proves entailment; it answers exactly on combinations of predicates, equations and atoms; the clauses use only allocated variables, none is repeated, tautological or mentions a variable twice, and their number is linear in the premises.", "quantifier": "all premises and goals (names free of the punctuation of the atom keys for completeness)", "why_tests_cant": "formulas and assignments are unbounded; sharing of subformulas depends on everything encoded before", "anchors": ["crates/logicaffeine_proof/src/cnf.rs: Cnf::from_premises, entailment_query, encode, clause_lits, assert, push_clause, atom_key, atom_value"]}
{"id": "C70", "title": "Cardinality constraints count", "statement": "A true at_most/at_least/exactly formula bounds the number of true operands whatever the introduced atoms; with introduced atoms free and operands not mentioning them, an assignment extends to a model exactly when at most / at least / exactly k operands are true; a certified refutation of premises with at_least k bounds the count below k in every model of the premises.", "quantifier": "all operand lists, formulas as operands, all k and prefixes", "why_tests_cant": "the number of assignments is exponential; the tests go to n = 6", "anchors": ["crates/logicaffeine_proof/src/cardinality.rs: at_most, at_least, exactly"]}
{"id": "C71", "title": "The parity solver decides, with checkable answers", "statement": "Solving a system of XOR equations over n variables returns either n values satisfying every equation or a nonempty list of equation indices that the refutation check accepts; it returns values exactly when some values satisfy the system, whatever the order of the equations; a list accepted by the check, wherever it came from, rules out every solution; an expression refuted through its parity gadgets is false in every interpretation.", "quantifier": "all systems, repeated and empty equations included, all expressions", "why_tests_cant": "eliminations over arbitrarily many word columns; certificates come from the combination of original rows", "anchors": ["crates/logicaffeine_proof/src/xorsat.rs: solve, satisfies, is_refutation, refute_via_parity"]}
{"id": "C72", "title": "The GF(2) solution space is exactly the set of solutions", "statement": "For up to 63 unknowns solve_gf2 returns none exactly when the system has no solution; otherwise enumerate lists every solution, only solutions and none twice, count is their number; a matrix is reported invertible exactly when only the zero vector is mapped to zero.", "quantifier": "all systems up to 63 unknowns, any number of rows", "why_tests_cant": "the number of systems and of solutions is exponential", "anchors": ["crates/logicaffeine_proof/src/gf2.rs: solve_gf2, SolutionSpace::enumerate, SolutionSpace::count, is_invertible_gf2"]}
{"id": "C73", "title": "Propagation-redundancy proofs are checked soundly", "statement": "A clause accepted with an assignment or a substitution witness keeps the formula satisfiable; an accepted refutation means the formula has no satisfying assignment; for literals and permutations in range the indexed checker gives the verdict of the plain one; acceptance is exactly the stated redundancy condition (a consistent witness touching the clause, and unit propagation from the negated clause refuting each clause the witness does not satisfy; or a map of the clause set into itself with the clause's image implied); an injective variable map passes the automorphism check exactly when it maps the clause set onto itself; composing permutations applies one after the other.", "quantifier": "all formulas, proofs, witnesses and permutations", "why_tests_cant": "all proofs; an unsound acceptance needs a specific witness", "anchors": ["crates/logicaffeine_proof/src/pr.rs: is_pr, is_pr_indexed, check_pr_refutation, check_pr_refutation_fast, is_substitution_redundant; crates/logicaffeine_proof/src/proof.rs: Perm, Witness, ProofStep; crates/logicaffeine_proof/src/symmetry_detect.rs: perm_is_automorphism, AutomorphismIndex"]}
{"id": "C74", "title": "Cutting planes over pseudo-Boolean constraints are sound", "statement": "at_least and at_most count true literals; adding two constraints adds exactly what they have to spare; multiplying changes no solution, rounding division loses none, saturation changes none at a non-negative degree; a constraint with positive coefficients is reported contradictory exactly when nothing satisfies it; the pigeonhole refutation ends in 0 >= 1 for every number of pigeons; a formula whose summed constraint is contradictory is false in every interpretation; the clauses of the cardinality theory follow from its constraints, are conflicts or unit on the trail, and none is missed; coefficient-preserving permutations keep the solutions, and the generated ones are such and connect all interchangeable variables.", "quantifier": "all constraints, formulas, trails and assignments; coefficients without overflow", "why_tests_cant": "solutions are exponentially many; the tests enumerate four variables", "anchors": ["crates/logicaffeine_proof/src/pseudo_boolean.rs: PbConstraint, is_pb_symmetry, coeff_symmetry_generators, php_refutation, refute_clausal, CardinalityTheory"]}
{"id": "C75", "title": "Matching decides, with a checkable witness either way", "statement": "Matching items to slots answers on every instance; a returned assignment gives every item an allowed slot below the slot count and no slot twice, and the checker accepts exactly such assignments; an assignment is returned exactly when one exists; otherwise the returned items outnumber the slots they allow and the witness check accepts them; a witness of different items accepted by the check rules out every assignment; with capacities the answer is an assignment respecting them exactly when one exists, and a witness accepted by the check rules them out.", "quantifier": "all adjacency lists, slot counts and capacities", "why_tests_cant": "all bipartite graphs; the brute force of the tests stops at a few items", "anchors": ["crates/logicaffeine_proof/src/matching.rs: assign_or_hall, assign_or_hall_capacitated, is_valid_assignment, is_hall_witness, is_cap_hall_witness"]}
{"id": "C76", "title": "The pigeonhole recogniser is sound, and exact on what it recognises", "statement": "A formula decided unsatisfiable by the pigeonhole recogniser is false in every interpretation; on a recognised formula without an atom excluding itself the verdict is exactly unsatisfiability; a formula is recognised exactly when it consists of disjoint positive disjunctions and exclusions among their atoms that form cliques; the surfaced Hall witness exists exactly when the verdict is positive; counting certificates are checked and imply the verdict, and exist exactly when more pigeons than holes.", "quantifier": "all formulas, all orders of the atom table", "why_tests_cant": "formulas are unbounded; verdicts come from a matching on an extracted graph", "anchors": ["crates/logicaffeine_proof/src/pigeonhole.rs: extract_bipartite, decide_pigeonhole_unsat, hall_refutation, counting_certificate, certify_pigeonhole_unsat, check_counting_cert"]}
{"id": "C77", "title": "The ordering-principle certificate is checked soundly", "statement": "A certificate accepted by the check means the clauses have no satisfying assignment; every certificate produced is accepted; a positive verdict on clauses means they are unsatisfiable; on an expression whose atoms are named apart it means the expression is false in every interpretation.", "quantifier": "all clause lists, certificates and expressions", "why_tests_cant": "all certificates; soundness is a descent over all elements of the order", "anchors": ["crates/logicaffeine_proof/src/ordering.rs: ordering_certificate, check_ordering_cert, refute_ordering, refutes_ordering_principle"]}
{"id": "C78", "title": "Extracted parities and the exactly-one refuter agree with the clauses", "statement": "Every parity equation extracted from clauses is equivalent to the clauses over exactly its variables, and every repetition-free group of clauses stating a parity is found; a recognised exactly-one group has exactly one true variable and odd parity in every satisfying assignment; the refuter answers yes exactly when such a group contradicts the extracted equations, and then no assignment satisfies the clauses.", "quantifier": "all clause lists and variable counts", "why_tests_cant": "all clause groups of up to twelve variables; no finite set of formulas covers them", "anchors": ["crates/logicaffeine_proof/src/parity_cardinality.rs: refute; crates/logicaffeine_proof/src/lyapunov.rs: extract_xor"]}
{"id": "C79", "title": "Constant folding keeps the outcome of an expression", "statement": "Evaluating a folded expression gives the same value, error and effects as the original, for every evaluation that reads defined variables and performs only regular operations (a neutral operand has the kind of the other operand, only divisions fail); arithmetic on integers with + - * and / folds faithfully with no such condition.", "quantifier": "all expressions, variables, external calls and evaluation states", "why_tests_cant": "expressions are unbounded trees over integers, rationals and all doubles", "anchors": ["crates/logicaffeine_compile/src/optimize/fold.rs: fold_expr, try_fold_binary, try_simplify_algebraic; crates/logicaffeine_compile/src/semantics/arith.rs: binary_op; crates/logicaffeine_compile/src/interpreter.rs: evaluate_expr_sync"]}
{"id": "C80", "title": "Constant folding keeps the execution of a program", "statement": "A folded program with folded functions runs as before (same control flow, variables, output and errors) on every regular execution; each symbol taken for a boolean is written only with booleans whatever the hash order, and in a program without functions and with separate loop variables those symbols hold only booleans.", "quantifier": "all programs, functions, hash orders, executions of any length", "why_tests_cant": "loops and recursion make executions unbounded, and the hash order varies between runs", "anchors": ["crates/logicaffeine_compile/src/optimize/fold.rs: fold_stmts, fold_stmt, collect_bool_syms, collect_writes; crates/logicaffeine_compile/src/interpreter.rs: execute_stmt_sync, Environment"]}
{"id": "C81", "title": "Dead code elimination keeps executions that end well", "statement": "Removing stores that are overwritten before they are read, branches and loops with literal conditions, and statements after a Return keeps the result, variables and output of every execution that ends well, provided nothing between the two stores can look at the symbol unseen, bind it or leave the block, and the branch taken in line binds nothing; exactly the stores that are overwritten with nothing in between that reads, branches or calls are removed.", "quantifier": "all programs, functions and executions of any length", "why_tests_cant": "which stores are dead depends on everything that may run between them, in unbounded programs", "anchors": ["crates/logicaffeine_compile/src/optimize/dce.rs: eliminate_dead_code, dead_store_elimination, collect_expr_reads, collect_stmt_reads; crates/logicaffeine_compile/src/interpreter.rs: execute_stmt_sync, Environment"]}
{"id": "C82", "title": "Constant propagation keeps the execution of a program", "statement": "Replacing immutable names bound to literals by their values, and folding, leaves the execution of a program and its functions unchanged (result, variables, output, errors) at every depth, on regular executions of programs that never bind a name again within its scope and whose functions do not set the main program's variables; an execution changes only the names it binds or sets, and a block restores those of the enclosing blocks.", "quantifier": "all programs, functions and executions of any length", "why_tests_cant": "scopes, shadowing and calls interact across unbounded executions", "anchors": ["crates/logicaffeine_compile/src/optimize/propagate.rs: propagate_stmts, propagate_stmt, substitute_identifiers; crates/logicaffeine_compile/src/interpreter.rs: execute_stmt_sync, Environment"]}
{"id": "C83", "title": "UUIDs carry their fields, sort by time and survive their text form", "statement": "Stamping sets exactly the version and variant bits; v1, v6 and v7 ids hold the time, clock sequence, node or random bits in the documented places; v6 and v7 ids made at different times within their 60 and 48 bits sort by byte order in the order of time; the canonical text spells the id in lower-case digits on the table and on the SSSE3 path, the parser accepts exactly the canonical, bare, braced and urn forms and gives the spelled id, and parsing what was encoded, one or many, gives the ids back.", "quantifier": "all ids, times, byte strings and both code paths", "why_tests_cant": "128-bit values and arbitrary text cannot be enumerated, and the vector path depends on the machine", "anchors": ["crates/logicaffeine_base/src/uuid.rs:110-216; crates/logicaffeine_base/src/uuid.rs:221-337; crates/logicaffeine_base/src/uuid.rs:342-428; crates/logicaffeine_base/src/uuid.rs:433-584; crates/logicaffeine_base/src/uuid.rs:588-599"]}
{"id": "C84", "title": "Money adds exactly within a currency and converts to the nearest minor unit", "statement": "An amount is rounded half-even to the minor unit of its currency once; sums, differences and integer multiples are exact and stay at that scale, and are refused across currencies; a conversion is defined exactly when both rates are known and the target's is not zero, differs from the exact value by at most half a minor unit, is monotone for positive rates, leaves a currency's own amounts alone, and there and back is lossless when the other currency's minor unit is worth less.", "quantifier": "all amounts, currencies and rate tables", "why_tests_cant": "amounts and rates are unbounded rationals", "anchors": ["crates/logicaffeine_base/src/money.rs:19-34; crates/logicaffeine_base/src/money.rs:42-80; crates/logicaffeine_base/src/money.rs:84-142; crates/logicaffeine_base/src/money.rs:157-195; crates/logicaffeine_base/src/money.rs:197-231"]}
{"id": "C85", "title": "Dimensions form an abelian group of exact rational exponents", "statement": "Exponents are kept in lowest terms with one representation each; products, quotients, reciprocals, integer powers and roots of dimensions add, subtract, negate, multiply and divide the exponents exactly as long as the 32-bit intermediate numbers fit; the product is commutative and associative with the dimensionless identity and reciprocal inverses, and the root of a power is the dimension itself.", "quantifier": "all dimensions whose intermediate numbers fit 32 bits", "why_tests_cant": "the exponents range over all 32-bit fractions on ten axes", "anchors": ["crates/logicaffeine_base/src/dimension.rs: igcd, Exp, Dimension"]}
{"id": "C86", "title": "Quantities convert between units without loss and combine by dimension", "statement": "A value built in a unit reads back as itself; reading in any unit of the dimension and building again gives the same quantity, and other units are refused; sums and differences are exact and refused across dimensions, products and quotients combine magnitudes and dimensions exactly, division by zero is refused; in a linear unit the readings of a sum add up; the unit chosen from a ladder is one of it, with the least magnitude at or above one, or else the greatest.", "quantifier": "all magnitudes, units and ladders", "why_tests_cant": "magnitudes are unbounded rationals and ladders unbounded lists", "anchors": ["crates/logicaffeine_base/src/quantity.rs: Unit, Quantity::of, in_unit, add, sub, mul, div, in_best_unit"]}
{"id": "C87", "title": "The word-sized value of the VM behaves as the value it boxes", "statement": "Registers of 64-bit NaN-boxed values, under any sequence of loads, copies, moves, reads, in-place changes and integer, float and comparison operations, hold and give exactly the values of a machine that keeps plain values: integers outside 48 bits spill to the heap and come back, floats other than NaN keep their bits, the fast paths for integers give the general result; no freed or unknown heap cell is ever touched, and dropping the registers leaves no heap cell behind.", "quantifier": "all operation sequences, values and allocators giving fresh addresses below 2^48", "why_tests_cant": "the unsafe reference counting depends on all interleavings of copies and drops", "anchors": ["crates/logicaffeine_compile/src/vm/nanbox.rs:73-450; crates/logicaffeine_compile/src/vm/value.rs:250-410"]}
{"id": "C88", "title": "Copy-on-write makes lists behave as values", "statement": "A program that binds, copies, pushes, pops, sets items and sets fields through variables prints what it would print if every variable held its own separate list, fails exactly when that one fails, and ends with the same contents; a statement never changes what a variable that is not its target shows.", "quantifier": "all such programs, with lists and structures nested and shared in any way", "why_tests_cant": "sharing between variables, items and fields can take unboundedly many shapes", "anchors": ["crates/logicaffeine_compile/src/interpreter.rs:4056-4090; crates/logicaffeine_compile/src/interpreter.rs:4280-4395; crates/logicaffeine_compile/src/interpreter.rs:1267-1317; crates/logicaffeine_compile/src/semantics/collections.rs:74-92; crates/logicaffeine_compile/src/semantics/collections.rs:334-349"]}
{"id": "C89", "title": "The universe-level order is decided exactly", "statement": "The kernel's comparison of universe levels returns for every two levels built from variables, successor, maximum and impredicative maximum, never reaching its unreachable case, and says yes exactly when the inequality holds for all values of the variables; equivalence is the same in both directions; successor, maximum and impredicative maximum simplify without changing the level; substituting levels for variables commutes with taking values, so accepted inequalities stay accepted in all instances.", "quantifier": "all level expressions, valuations and substitutions", "why_tests_cant": "the order quantifies over all naturals for every variable and case splits nest", "anchors": ["crates/logicaffeine_kernel/src/term.rs:160-440"]}
{"id": "C90", "title": "Named substitution avoids capture, and the comparison of terms is alpha-equivalence", "statement": "Substituting a term for a variable in the kernel's named terms gives, after erasing the names of bound variables, exactly the term in which the free occurrences are replaced, for any choice of bound names; successive substitutions commute as they should. The structural comparison of terms returns, accepts all terms that are equal up to bound names, and accepts no others.", "quantifier": "all terms, variables, replacements and choices of names", "why_tests_cant": "capture needs particular coincidences of names under nested binders", "anchors": ["crates/logicaffeine_kernel/src/type_checker.rs:890-1287; crates/logicaffeine_kernel/src/type_checker.rs:1446-1467; crates/logicaffeine_kernel/src/type_checker.rs:1593-1688"]}
{"id": "C91", "title": "Type inference accepts only well-typed terms", "statement": "Whatever type infer_type finds for a term of sorts, variables, globals, products, abstractions and applications is a type of that term by the rules of the calculus of constructions; a certificate that passes the re-check is a proof of the proposition it claims.", "quantifier": "all terms, contexts and claims", "why_tests_cant": "type checking is a soundness claim over all terms; a false proof needs an unusual choice of names", "anchors": ["crates/logicaffeine_kernel/src/type_checker.rs:51-170; crates/logicaffeine_kernel/src/type_checker.rs:453-525; crates/logicaffeine_kernel/src/type_checker.rs:1309-1323; crates/logicaffeine_kernel/src/certificate.rs:64-89"]}
{"id": "C92", "title": "The second kernel's nameless terms: substitution is exact and agrees with the named one", "statement": "Converting a named term to the second kernel's nameless form succeeds exactly on terms without holes whose free variables are in scope, and gives the same result exactly for terms equal up to bound names. Opening a binder replaces its variable by the argument in any term and never computes an index below zero; the result is the conversion of what the first kernel's named substitution gives. Unfolding a mutual block replaces every name by its own projection. Printing a nameless term and reading it back gives the same term.", "quantifier": "all terms, scopes, arguments and mutual blocks", "why_tests_cant": "index errors need free variables under several binders at once", "anchors": ["crates/logicaffeine_kernel/src/recheck.rs:97-330"]}
{"id": "C93", "title": "What the second kernel accepts, and what both kernels agree on, is well typed", "statement": "Whatever type recheck finds for a closed term is a type of that term by the rules of the calculus of constructions with cumulativity, eta and proof irrelevance, for any names of its variables. If the first kernel finds a type and double_check reports agreement, the term has that type. Agreement is reported only when both kernels accept.", "quantifier": "all closed terms, global environments and types found by the first kernel", "why_tests_cant": "type checking is a soundness claim over all terms", "anchors": ["crates/logicaffeine_kernel/src/recheck.rs:452-582; crates/logicaffeine_kernel/src/recheck.rs:612-713; crates/logicaffeine_kernel/src/recheck.rs:749-875; crates/logicaffeine_kernel/src/recheck.rs:1525-1566; crates/logicaffeine_kernel/src/recheck.rs:1591-1648"]}
{"id": "C94", "title": "Interval scheduling and register allocation are exact and certified", "statement": "For tasks that take time, schedule_or_overflow returns an assignment exactly if the tasks can run on that many machines; the assignment uses only those machines and never runs two tasks on one at the same time. Otherwise it returns machines+1 distinct tasks that all run at one instant. peak_concurrency is the largest number of tasks running at once. is_valid_schedule accepts exactly the right assignments, and is_overflow_witness accepts only sets of tasks that rule out every schedule. allocate gives each variable a register no variable live at the same time has, or reports the true pressure and variables that are all live at one point.", "quantifier": "all lists of tasks or live ranges and numbers of machines or registers", "why_tests_cant": "the tests try a few layouts; the claim is about every set of intervals", "anchors": ["crates/logicaffeine_proof/src/interval_sched.rs:42-142; crates/logicaffeine_proof/src/register_alloc.rs:50-116"]}
{"id": "C95", "title": "Proof lines emitted for parity refutations are accepted", "statement": "If resolution_refutation returns a proof for clauses taken from a formula, the proof ends in the empty clause and the RUP checker accepts it against that formula. It returns a proof for every unsatisfiable set of clauses when its two budgets are large enough, and None for a satisfiable one. emit_drat_over_support has the same guarantee. The parity gadget of an equation is satisfied exactly by the assignments that satisfy the equation. If a set of equations is refuted by xorsat then emit_xor_drat returns an accepted proof, given enough budget.", "quantifier": "all clause sets, equations and budgets", "why_tests_cant": "the tests emit proofs for a handful of Tseitin formulas; soundness and completeness are about all of them", "anchors": ["crates/logicaffeine_proof/src/xor_drat.rs:32-192"]}
{"id": "C96", "title": "DIMACS files are read exactly and printing is undone by reading", "statement": "parse returns a formula exactly if the lines that are neither blank nor comments are one header and then integers no larger than the header's variable count, with each clause ended by 0, and the formula returned has these clauses in this order. The clause count of the header is not checked. No literal returned names a variable out of range. Comment and blank lines anywhere after the first change nothing. parse(print(f)) = f for every formula whose variables are in range.", "quantifier": "all texts and formulas", "why_tests_cant": "the tests read a few files; the claim is about every text", "anchors": ["crates/logicaffeine_proof/src/dimacs.rs:47-113"]}
{"id": "C97", "title": "Emitted proofs are accepted by their checkers, and an accepted LRAT text refutes", "statement": "If check_lrat accepts a text, whatever it is, then the clauses have no model. For proofs in range, emit_drat and emit_lrat both succeed or both fail, with the same error, and without witness steps they succeed exactly on the proofs that check_pr_refutation accepts. The text of emit_lrat is accepted by check_lrat. The text of emit_drat read by parse_dpr is the same list of steps followed by the empty clause. The text of emit_dpr is read by parse_dpr as a proof that check_pr_refutation accepts, although clauses and witnesses are reordered and substitutions are replaced by assignments. emit_dpr does not panic and with assignment witnesses only it succeeds exactly on accepted proofs.", "quantifier": "all clauses, proofs and texts", "why_tests_cant": "the tests emit and check a few refutations; the claim relates an emitter and a checker on every proof", "anchors": ["crates/logicaffeine_proof/src/proof_emit.rs:101-290", "crates/logicaffeine_proof/src/proof_emit.rs:439-755"]}
{"id": "C98", "title": "Strict positivity of constructors is decided as documented, and makes the inductive meaningful", "statement": "check_positivity accepts a constructor type exactly if every domain that is not itself inside a domain either does not mention the block of inductives or is a recursive field, a member of the block applied to arguments without the block at the end of a product whose domains are without it. No mention is then inside a domain of a domain. Read as implications, the fields of accepted constructors are monotone in the inductive, so that there is a least truth value of the inductive that agrees with its constructors. add_mutual_inductives checks against every name of the block. Fields beyond the parameters have sorts within the sort of the inductive. Registration through add_constructor_checked keeps False without closed inhabitants.", "quantifier": "all constructor types, blocks and contexts", "why_tests_cant": "the tests check four types; the claim is about all terms, and about what a context can be made to contain", "anchors": ["crates/logicaffeine_kernel/src/positivity.rs:32-234", "crates/logicaffeine_kernel/src/context.rs:545-612", "crates/logicaffeine_kernel/src/type_checker.rs:527-582"]}
{"id": "C99", "title": "Symmetry breaking keeps what a program returns, and its certificate holds at every width", "statement": "rev_n(x, n) reverses the low n bits of x; on n-bit values it commutes with complement and exchanges the two unit shifts (L1, LEM4, LEM5) for every n up to 62, so the certificate holds. For the N-Queens count, written with the bit-trick loop or with the counted loop in the search and in the entry, break_symmetry_stmts rewrites the entry and both programs return the same single value for every board size. The same for colourings of a path, for every number of colours and every length. Functions that are native, generic, exported, opted out or searches are untouched, as is a program without a search. Every rewritten program returns what it returned.", "quantifier": "all widths, values, board sizes, colour counts and lengths; all programs of the fragment", "why_tests_cant": "the certificate is run up to width 16 and argued beyond; the tests run four board sizes on one program; soundness is a claim about every program the recogniser accepts", "anchors": ["crates/logicaffeine_kernel/src/bitvector.rs:39-94", "crates/logicaffeine_compile/src/optimize/symmetry.rs:28-1048"]}
{"id": "C100", "title": "Inlining and common subexpression elimination keep what a program returns", "statement": "For every program with distinct function names, whatever a call returned it returns after inline_tiny_fns replaced calls of one-expression helpers by their bodies. After cse_stmts, a call returns what it returned before: temporaries are computed where the original would compute the value, and a cached value is used only while the variables it was computed from, and the variable that holds it, are unchanged. Both passes keep the functions and their parameters.", "quantifier": "all programs of the fragment, all arguments", "why_tests_cant": "tests compare a few programs; soundness is a claim about every program, in particular about every interleaving of declarations, assignments, branches and loops", "anchors": ["crates/logicaffeine_compile/src/optimize/inline_tiny.rs:30-235", "crates/logicaffeine_compile/src/optimize/gvn.rs:14-483"]}
{"id": "C101", "title": "A message frame is read back as sent and damage is refused", "statement": "For every codec, integrity, compression and body, unframing a frame gives back exactly these. A checked frame with any change confined to its eight checksum bytes, or to two adjacent bytes of its body, is refused. Whatever is accepted has a known header and, when the header announces one, the right checksum of the body that is returned. (The header byte and the length are not covered by the checksum, and the zero-copy view does not verify it.)", "quantifier": "all bodies, all codecs and compressions, all damages of the stated extent", "why_tests_cant": "a damage test flips a few bytes of a few messages; that no value of the damaged bytes collides is arithmetic modulo 2^64 over all bodies", "anchors": ["crates/logicaffeine_compile/src/concurrency/marshal.rs:5790-5877", "crates/logicaffeine_compile/src/concurrency/marshal.rs:1790-1806"]}
{"id": "C102", "title": "Peer profiles and handshakes are read back as announced and negotiation uses only what both announce", "statement": "A profile or handshake frame decodes to exactly what was encoded, every strict prefix of either is refused, and a decoded profile has fields in range and version 1. No byte string is taken for two of data frame, handshake, batch and shard. Negotiation picks the strongest compression both speak, type ids only with both announcing them under one non-zero epoch, computed sends only with both announcing them and the receiver accepting; both ends agree on compression and type ids; to a peer that announced nothing a plain message is sent.", "quantifier": "all profiles, senders, prefixes and byte strings", "why_tests_cant": "exhaustive prefixes of all profiles and all pairs of feature words cannot be enumerated", "anchors": ["crates/logicaffeine_compile/src/concurrency/marshal.rs:703-920", "crates/logicaffeine_compile/src/concurrency/marshal.rs:1733-1763"]}
{"id": "C103", "title": "The stream deframer delivers every frame once, in order, however the bytes arrive", "statement": "Whatever the chunks, the frames delivered and the bytes kept depend only on the concatenation. A stream of frames followed by a strict prefix of a further one delivers exactly the complete bodies, in order, and keeps exactly that prefix. (After ten bytes of an overlong length nothing is delivered again and everything is kept.)", "quantifier": "all sequences of bodies, all chunkings, all cuts", "why_tests_cant": "there are exponentially many ways to cut a stream", "anchors": ["crates/logicaffeine_compile/src/concurrency/stream.rs:14-104"]}
{"id": "C104", "title": "Recursive calls that the termination guard lets through are on parts of the structural argument", "statement": "Run a fixpoint body that the guard accepts, with a constructor at its structural position whose fields, parameters not counted, are at least as many as the products of its type. Every call through the recursive name, while the body runs or while its result is applied further, whatever earlier calls returned, has at the structural position a field of that argument or something such fields return when applied. For first-order data it is an immediate field, hence smaller. The guards of the two kernels accept the same fixpoints when no two of the names involved are equal and no match on the structural parameter has spare cases. (For inductives with parameters, and for fields of polymorphic types, the guard admits endless fixpoints and with them closed proofs of False.)", "quantifier": "all contexts, bodies, environments, arguments, values of calls and evaluations", "why_tests_cant": "a guard is tested on a handful of accepted and refused fixpoints; that no accepted one has a bad call is a statement about all bodies", "anchors": ["crates/logicaffeine_kernel/src/termination.rs:22-487", "crates/logicaffeine_kernel/src/recheck.rs:1009-1261", "crates/logicaffeine_kernel/src/type_checker.rs:172-446", "crates/logicaffeine_kernel/src/reduction.rs:52-405"]}
{"id": "C105", "title": "The ML-KEM transform computes polynomial arithmetic modulo X^256 + 1 and 3329", "statement": "mlkemNtt of any 256 integers returns, in [0, 3329), the transform defined by FIPS 203: pair i is the polynomial modulo X^2 - 17^(2 rev7(i)+1). The inverse transform undoes it up to the factor 2285, in both orders. Base-multiplying two transforms and transforming back gives exactly the product of the two polynomials modulo X^256 + 1, with no factor left over, and toMont after the base multiply gives the transform of that product. The AVX2 transforms return the same arrays as the scalar ones, the Word16 entry points agree with the Int ones on reduced coefficients, and the Montgomery, Barrett and conditional-add reductions and the coefficient-wise sum and difference are exact. (The base multiply and the inverse do not reduce their input: outside i16 a release build multiplies another number.)", "quantifier": "all polynomials of 256 integer coefficients, all i16 and i32 arguments in range, both processors", "why_tests_cant": "the tests transform a few pseudo-random polynomials; that no intermediate i16 overflows and that all 128 twiddle factors fit together is a statement about all inputs", "anchors": ["crates/logicaffeine_system/src/ntt.rs:11-407", "crates/logicaffeine_system/src/ntt.rs:672-800", "crates/logicaffeine_system/src/ntt.rs:1106-1137"]}
{"id": "C106", "title": "ML-KEM serialization and sampling are exact", "statement": "Compressing coefficients to d bits gives d-bit numbers, and decompressing them lands within round(3329 / 2^(d+1)) of the originals modulo 3329; up to 11 bits, compressing a decompressed number returns it. byteEncode packs the low d bits of every coefficient as the little-endian number with these digits in the fewest bytes; byteDecode never reads past the end and returns the digits, modulo 3329 for d = 12; the two undo each other whenever the fields fill the bytes (for d = 12: unless a field was 3329 or more). (A width of 0 divides by zero, and beyond 57 bits the accumulator can lose bits.) Each noise coefficient is the difference of two sums of eta consecutive bits of the buffer. sampleNtt returns the first 256 numbers below 3329 among the twelve-bit digits of the stream, in order, or fails when there are fewer; sampling 168-byte blocks one by one, with the scalar or the AVX2 sampler, gives the same as sampling the concatenated stream.", "quantifier": "all coefficient lists, widths and byte strings; all sequences of blocks; both processors", "why_tests_cant": "tests use a few polynomials and the widths of the standard; the rounding bound, the accumulator width and the 256 shuffle masks are statements about all inputs", "anchors": ["crates/logicaffeine_system/src/ntt.rs:416-612", "crates/logicaffeine_system/src/ntt.rs:803-928", "crates/logicaffeine_system/src/ntt.rs:963-1029"]}
{"id": "C107", "title": "Boolean function analysis computes the textbook quantities", "statement": "The fast transform of a list of 2^n numbers is the sum over all inputs with the sign of the linear function of every mask, and applied twice multiplies by 2^n. The Walsh spectrum of a truth table holds, for every mask, the agreements minus the disagreements with that linear function, its squares sum to 4^n, and it exists exactly for lengths that are powers of two. The nonlinearity is the Hamming distance to the nearest affine function. The best linear approximation is a mask of largest absolute coefficient (the constant mask excluded when asked). The correlation immunity order is the largest m such that the function is balanced against every linear function of 1 to m variables. The algebraic normal form reproduces the function as an exclusive or of monomials, is the only coefficient vector that does, and the transform undoes itself; the degree is the largest monomial. The autocorrelation at a is the sum of the signs of f(x) + f(x + a), with an exact division.", "quantifier": "all n, all truth tables and integer vectors of length 2^n (n at most 64 for weights of masks)", "why_tests_cant": "tests use a few small functions with known spectra; the identities are statements about every function of any number of variables", "anchors": ["crates/logicaffeine_base/src/describe.rs:1118-1246"]}
{"id": "C108", "title": "Berlekamp-Massey finds the shortest register, and it predicts the keystream", "statement": "Over every field, and in particular GF(2) and the table-driven GF(256) (whose tables do form the field with reduction polynomial x^8+x^4+x^3+x+1), Berlekamp-Massey never indexes out of bounds and returns L taps such that replaying them from the first L elements gives the whole sequence, and no shorter register does. With at least 2L elements the taps are unique. If the elements come from an unknown register, and there are at least twice as many as it is long, the register found generates every later output as well. Replaying gives exactly the number of elements asked for when the seed is as long as the taps, and panics when it is shorter. Packing bytes into bits and back is the identity modulo 256, and a byte column is reported as a keystream exactly when its complexity is neither zero nor the whole length, in which case the report regenerates it.", "quantifier": "all fields, all sequences, registers, seeds and lengths", "why_tests_cant": "tests recover two or three short registers; minimality and prediction quantify over every register and every continuation", "anchors": ["crates/logicaffeine_base/src/describe.rs:559-739"]}
{"id": "C109", "title": "2-adic complexity and maximal order complexity are what they claim to be", "statement": "The register of a fraction p/q with q odd generates exactly the n bits that are p/q modulo 2^n. Rational reconstruction of every non-empty bit sequence ends, and returns a fraction in lowest terms with odd positive denominator that represents the sequence up to a common factor g, the numerator and denominator times g at most the square root of 2^n; so the 2-adic complexity is at most n/2+1. The keystream of every p/q with (|p|+q)^2 < 2^n is recovered as p/q. Whatever the detector reports regenerates the sequence exactly. The maximal order complexity is the least window length for which equal windows are followed by equal bits, and never exceeds the linear complexity. (The documented congruence of the reconstruction and the documented comparison of maximal order with 2-adic complexity do not hold.)", "quantifier": "all bit sequences, all fractions with odd denominator, all lengths", "why_tests_cant": "tests reconstruct a few fractions; exactness, recovery and minimality quantify over every sequence and fraction", "anchors": ["crates/logicaffeine_base/src/describe.rs:751-890", "crates/logicaffeine_base/src/describe.rs:1858-1866"]}
{"id": "C110", "title": "Algebraic recurrences and algebraic immunity are decided exactly", "statement": "The monomials enumerated for degree d over l variables are all the increasing variable lists of length at most d, each once, and as many as the binomial coefficients add up to. Elimination over GF(2) returns a solution of every solvable system and None only for unsolvable ones, and its kernel basis lies in the kernel, generates it and is independent. The search for an algebraic recurrence never indexes out of bounds, returns a polynomial whose replay is the whole sequence whenever one exists for that order and degree, and the algebraic complexity is the least such order up to half the length. Every table of 2^n bits has an algebraic immunity, at most n/2 rounded up, with a witness that passes verification, and no verified witness in n variables has lower degree; a polynomial with a non-zero coefficient is never the zero function. Verification accepts exactly the non-zero polynomials of the right length vanishing where they must (but does not check the number of variables against the table).", "quantifier": "all systems, bit sequences, orders, degrees and truth tables", "why_tests_cant": "tests solve a few systems and three filters; minimality, completeness and the n/2 bound quantify over all polynomials and all tables", "anchors": ["crates/logicaffeine_base/src/describe.rs:906-1037", "crates/logicaffeine_base/src/describe.rs:1263-1386"]}
{"id": "C111", "title": "Certified inprocessing keeps satisfiability and emits accepted proof steps", "statement": "Eliminating a variable: every model of the reduced clauses becomes a model of the input by changing that variable only, for every input. If no clause contains both the variable and its negation, every model of the input is kept, the number of clauses does not grow, the variable is gone, and the emitted steps are accepted one by one by the refutation checker and leave exactly the reduced clauses. The same holds for bounded variable elimination of a whole formula, and when its result contains the empty clause the emitted steps are an accepted refutation. A result of bucket elimination is an accepted refutation and the formula has no model; every unsatisfiable formula is refuted once the bounds are large enough. Vivification keeps exactly the same models, only removes literals, never empties a clause, and its steps are accepted.", "quantifier": "all clause sets, variables and bounds", "why_tests_cant": "tests run a few random formulas of at most seven variables by brute force; extension of models, acceptance of the steps and completeness range over all formulas", "anchors": ["crates/logicaffeine_proof/src/inprocess.rs:14-87", "crates/logicaffeine_proof/src/inprocess.rs:167-271", "crates/logicaffeine_proof/src/solve.rs:350-363"]}
{"id": "C112", "title": "Linear algebra over a prime field: exact verdicts, checked refutations, complete enumeration", "statement": "For a prime modulus: the inverse by exponentiation is the inverse of every nonzero residue. The satisfaction test says exactly whether every equation holds modulo p. If all variables are below the declared number, the solver answers every system: a returned point has residues as entries and satisfies all equations, a returned combination of equations passes the refutation check, and a combination that passes the check proves that no assignment satisfies the system; so the verdict is exact. The solution space lists each solution exactly once and counts them. The circular difference system of length n with unit increments is consistent exactly when p divides n. Outside the precondition both fail: a variable beyond the declared number is dropped by the solver and the refutation check but not by the satisfaction test, so a solvable system is refuted; a composite modulus gives points that do not satisfy the system.", "quantifier": "all primes, systems and assignments", "why_tests_cant": "tests run a handful of small systems over 2, 3, 5 and 7; exactness and completeness of the enumeration range over all systems and all primes", "anchors": ["crates/logicaffeine_proof/src/modp.rs:1-317"]}
{"id": "C113", "title": "Farkas certificates of linear arithmetic are valid, and found exactly when the system has no rational solution", "statement": "For constraints c_i <= 0 with no stored zero coefficient: a returned certificate has positive multipliers on existing constraints only, their combination is a positive constant without variables, and no rational or integer point satisfies all constraints; when none is returned some rational point satisfies all of them. Any non-negative multipliers whose combination is a positive constant refute the system. The parser accepts exactly the linear terms (no unknown node, no product of two operands that both vary), the parsed expression has no zero coefficient and has the value of the term at every point, and the same holds of differences; so for a list of comparisons between terms the search fails exactly when some rational point satisfies them all. With a stored zero coefficient a contradiction is missed.", "quantifier": "all constraint lists, terms and rational points", "why_tests_cant": "tests run six small systems; validity and completeness of Fourier-Motzkin elimination range over all systems", "anchors": ["crates/logicaffeine_proof/src/linarith_solve.rs:1-186"]}
{"id": "C114", "title": "Well-foundedness of a transition system, its countdown measure and the two directions between them", "statement": "For a system with one successor list per state: the acyclicity test answers true exactly when no infinite walk through existing states exists (equivalently every state is accessible), and false exactly when a cycle can be reached; a measure passes the countdown check exactly when it has one entry per state and strictly decreases along every transition; the canonical measure is returned exactly for well-founded systems and gives each state the length of the longest walk from it. If every successor is a state, the system is well-founded exactly when some measure passes the check, and the canonical one passes and is pointwise least. The chain of n states has canonical measure n-1, ..., 0. With a successor outside the state range the test ignores it, a canonical measure is still returned, and no measure passes the check.", "quantifier": "all finite systems and measures", "why_tests_cant": "tests use a handful of graphs; the equivalences range over all graphs and measures", "anchors": ["crates/logicaffeine_proof/src/coalgebra.rs:1-116"]}
{"id": "C115", "title": "Schedules of commuting steps: order closure, linear extensions, cube filling and determinism", "statement": "The order built from edges is their transitive closure. The listed linear extensions are exactly the orderings of all steps that respect every edge, each once, and none exists exactly when the edges have a cycle; the canonical one exists exactly without a cycle and is the lexicographically first. Any two are linked by exchanging neighbouring unrelated steps. The cube condition holds for every order and the Euler characteristic is 1 for every acyclic one (not for a cyclic one). The permutation list holds each ordering once. Operations accepted by the independence test commute on all states, and when it rejects two cell sets some functions on these cells do not commute; rejected operations may still commute. Every schedule that keeps conflicting operations in order ends in the state of the program order, and these are exactly the linear extensions of the trace order; if all pairs are independent every permutation gives one state.", "quantifier": "all step counts, edge lists, operations, functions, states and schedules", "why_tests_cant": "tests enumerate schedules of a few small programs", "anchors": ["crates/logicaffeine_proof/src/proof_rewrite.rs:37-189", "crates/logicaffeine_proof/src/proof_rewrite.rs:246-264", "crates/logicaffeine_proof/src/trace_determinism.rs:27-74"]}
{"id": "C116", "title": "Number theory under the factoring attacks: gcd, inverses, powers, roots, remainders and primality", "statement": "gcd is the greatest common divisor for all integers. For a >= 0 and m > 0 the modular inverse is returned exactly when the two are coprime, and is the residue whose product with a is 1 (for a negative a it may be missing). Modular powers are exact. The integer square root and nth root are the floors of the real roots, whatever positive floating-point estimate the search starts from. The remainder theorem returns the unique residue below the product, and nothing exactly when the moduli are not pairwise coprime. The primality test accepts exactly the strong probable primes to its twelve bases; it accepts every prime but also some composites, so next_prime ends with the first accepted number, never skips a prime, and may return a composite.", "quantifier": "all integers, moduli, congruence lists and float estimates", "why_tests_cant": "tests use a few small numbers; the pseudoprime and the exactness claims range over all integers", "anchors": ["crates/logicaffeine_proof/src/factor.rs:22-192", "crates/logicaffeine_proof/src/factor.rs:324-395"]}
{"id": "C117", "title": "Factoring attacks: what they return is right, and when they succeed", "statement": "A factorization passes the verifier exactly if both parts exceed 1 and multiply to the number. Trial division, Fermat, Pollard rho, Pollard p-1 and Wiener return only such factorizations, so nothing for a prime. Trial division finds the least prime divisor exactly when it is within the bound. Fermat with enough rounds finds the pair closest to the root. The p-1 attack succeeds when n has an odd prime divisor p such that p-1 divides the factorial of the bound and 2 to that factorial is not 1 modulo n; a smooth p-1 alone is not enough. Broadcast decryption returns the message for at least e pairwise coprime moduli above it; the low-exponent attack returns exactly the integer root when there is one; for coprime exponents the common-modulus attack returns the message or nothing, and the message if it is coprime to n.", "quantifier": "all moduli, bounds, exponents, messages and ciphertexts", "why_tests_cant": "tests factor a handful of moduli", "anchors": ["crates/logicaffeine_proof/src/factor.rs:177-322", "crates/logicaffeine_proof/src/factor.rs:398-455"]}
{"id": "C118", "title": "Multiplicative order by baby and giant steps, and factoring by order finding", "statement": "The prime list of a positive number holds exactly its prime divisors. Modulo n > 1 a returned order is the least positive exponent giving 1 and the base is coprime to n; without a result the base shares a factor with n or no exponent up to the square of the step count gives 1, so every order up to the bound is found. Splitting from an order returns only proper divisors and always one when the exponent is even and its half gives neither 1 nor -1. Factoring by orders returns only proper divisors of an odd number, hence nothing for an odd prime. An order above the bound can be returned, modulo 1 the result is not the order, and for 2 the factor 2 is returned.", "quantifier": "all bases, moduli, bounds, try counts and seeds", "why_tests_cant": "tests check a few small moduli", "anchors": ["crates/logicaffeine_proof/src/period.rs:26-165"]}
{"id": "C119", "title": "Related-message attack: correctness, termination on related ciphertexts and divergence otherwise", "statement": "A message returned by the attack is a residue whose power is the first ciphertext. If the ciphertexts really belong to a message x and to x+r, the attack terminates and the only message it can return is x modulo n. Polynomial division by an invertible constant never terminates, so on ciphertexts that are not related the attack can loop for ever instead of answering None.", "quantifier": "all exponents, moduli, shifts, messages and ciphertexts", "why_tests_cant": "a test cannot observe non-termination, and tests use one related pair", "anchors": ["crates/logicaffeine_proof/src/factor.rs:457-539"]}
{"id": "C120", "title": "Certified minimisation by binary search", "statement": "For any decision outcomes a returned optimum lies in the range, carries the witness of the decision at the optimum, is flagged as certified, and is the lower end or has a refuted predecessor; without a result the range is empty, its top is not satisfiable or some query is unsupported. If feasibility is monotone the optimum is the least feasible bound of the range, and if no query is unsupported a result exists exactly when some bound is feasible. Without monotonicity the certified flag is also set for bounds that are not the least.", "quantifier": "all decision procedures, ranges and witnesses", "why_tests_cant": "tests run four small problems", "anchors": ["crates/logicaffeine_proof/src/optimize.rs:27-58"]}
{"id": "C121", "title": "Local lemma certificate and resampling search", "statement": "The dependency degree is the largest number of other clauses sharing a variable with a clause. If no clause repeats a variable and the test implies e*(d+1) <= 2^w (or the weaker rational inequality (d+1)^(d+1) <= 2^w * d^d for d >= 1), every certified clause set is satisfiable; a set with an empty clause is never certified. With repeated literals a certified set can be unsatisfiable. An assignment returned by the resampling search has one value per variable and satisfies every clause, for any random bits and any cap; for an unsatisfiable set nothing is returned; one resampling step changes only the variables of the violated clause.", "quantifier": "all clause sets, variable counts, random streams and caps", "why_tests_cant": "tests fuzz small clause sets without repeated literals against brute force", "anchors": ["crates/logicaffeine_proof/src/lll.rs:22-107"]}
{"id": "C122", "title": "Resolution width: closure, minimum and lower-bound certificates", "statement": "With variables below 63, the width-w closure contains exactly the clauses that have a resolution derivation whose derived clauses (and, under the strict convention, axioms) have at most w literals, and the worklist loop terminates. The width test answers whether the empty clause has such a derivation. The minimum search over 0..=num_vars returns the least such width, and None exactly when the clause set is satisfiable, provided every variable is below num_vars. A certificate accepted by the lower-bound checker, from any source, rules out a width-w refutation; the closure itself is accepted whenever there is none.", "quantifier": "all clause sets over at most 63 variables, widths, conventions and certificates", "why_tests_cant": "tests compare with a census for n <= 3 and a few pigeonhole instances", "anchors": ["crates/logicaffeine_proof/src/res_width.rs:25-157"]}
{"id": "C123", "title": "Counting-principle refuter", "statement": "A certificate (n, q, r) is issued exactly when every clause is a non-empty all-positive clause or a pair of negative literals, there are n >= 2 positive clauses, none repeats a variable, any two variables of one positive clause exclude each other by a clause, every variable of a positive clause occurs in exactly q >= 2 of them, and r = n mod q is not 0. Then the clause set is unsatisfiable and the certificate passes its own check; the refuter answers true exactly then.", "quantifier": "all clause sets and variable counts", "why_tests_cant": "tests use generated instances for a few n and q", "anchors": ["crates/logicaffeine_proof/src/counting_principle.rs:20-100"]}
{"id": "C124", "title": "Size bounds read off rank annotations", "statement": "A size bound is issued exactly for non-increasing rank lists. It reports the number of distinct ranks and the size of the fullest level; their product is at least the number of steps and at most its square. The certificate of a ranked refutation is issued exactly when the checker accepted, there is one rank per step and the ranks are non-increasing; the final comparison never rejects.", "quantifier": "all rank lists", "why_tests_cant": "tests use a few rank lists and generated pigeonhole refutations", "anchors": ["crates/logicaffeine_proof/src/complexity.rs:18-80"]}
{"id": "C125", "title": "Orbits of assignments under literal permutations", "statement": "A literal permutation carries the value of each variable to the variable of its image, flipped when the image is negative; the identity acts trivially and composition acts by composition. The orbit vector has one entry per assignment: the smallest assignment connected to it by the generators, equal for two assignments exactly when they are connected. The number of orbits and the orbit sizes are the numbers of components and of connected assignments.", "quantifier": "all variable counts, generators and assignments", "why_tests_cant": "tests check a few generator sets for at most 4 variables", "anchors": ["crates/logicaffeine_proof/src/groupoid.rs:21-95", "crates/logicaffeine_proof/src/proof.rs:26-83"]}
{"id": "C126", "title": "Generated group and orbit-stabiliser equation", "statement": "The group enumeration always ends with a duplicate-free list of products of generators containing the identity; if it is shorter than the cap it contains all of them. In that case two assignments have the same orbit representative exactly when a group element takes one to the other, and the orbit size times the stabiliser size is the group size. At the cap the equation can fail.", "quantifier": "all variable counts, generators, caps and assignments", "why_tests_cant": "tests check the equation for the symmetric groups on few variables", "anchors": ["crates/logicaffeine_proof/src/groupoid.rs:96-136"]}
{"id": "C127", "title": "Symmetric explanation learning is fail-closed", "statement": "For any solver whose learned clauses use declared variables and any generators, the procedure ends without a panic: an Unsat verdict means that no assignment satisfies the clauses and its steps are RUP additions that check; a model was found by the solver on a database containing the clauses and having the same models. A clause is added exactly when it is RUP and new as a set of literals. No step that entered the proof is rejected by the final check, which only asks whether the final database propagates to a contradiction. The image of a RUP clause under a symmetry of the database is RUP. A pass reports progress exactly when it added a step.", "quantifier": "all clause lists, generators, solvers and round caps", "why_tests_cant": "tests run pigeonhole and random formulas with the real solver", "anchors": ["crates/logicaffeine_proof/src/sym_dynamic.rs:28-140"]}
{"id": "C128", "title": "Satisfaction-driven clause learning", "statement": "For any solver and generators: a clause found for a partial assignment is its negation, is accepted by the propagation-redundancy checker and preserves satisfiability. The discovery adds distinct new unit clauses, at most two per variable, so its cap never binds and it stops only when no literal yields a new clause; the result is satisfiable exactly if the input is, and the steps are accepted in order. The certified solver's verdicts are right when the underlying solver is right on the final database; the composed proof checks when returned, and is refused only if the learned clauses do not refute that database. The fallback proof is returned unchecked.", "quantifier": "all clause lists, solvers, generators and assignments", "why_tests_cant": "tests run pigeonhole and small random formulas with the real solver", "anchors": ["crates/logicaffeine_proof/src/sdcl.rs:24-193"]}
{"id": "C129", "title": "Crossed modules and the nerve of a finite group", "statement": "On a group table the inverse search returns the two-sided inverse; the cyclic table of positive order is a group. For a homomorphism between groups, the number of kernel elements times the image size is the order of the source, and the reported order of the cokernel is exact: the image size divides the order of the target and the quotient is the number of left cosets of the image. The face maps of the nerve satisfy the simplicial identities in every degree, and every horn of degree 2 has exactly one filler.", "quantifier": "all finite group tables, homomorphisms, simplices and face indices", "why_tests_cant": "tests check the trivial, cyclic and symmetric groups of small order", "anchors": ["crates/logicaffeine_proof/src/two_group.rs:17-113", "crates/logicaffeine_proof/src/kan_complex.rs:20-35"]}
{"id": "C130", "title": "Degree-2 Positivstellensatz refutations", "statement": "Every polynomial of the lift is non-positive at every model of the formula, and so a certificate accepted by the checker over exact integers shows that the formula has no model, whether or not its variables are declared. For a formula over declared variables, every certificate returned by the elimination is accepted by the checker, and a refutation is only reported when the formula has no model. With an undeclared variable a satisfiable formula can be refuted. Without overflow checks, the checker accepts multipliers near the end of the integer range for a formula with no clauses.", "quantifier": "all formulas, variable counts, certificates and models", "why_tests_cant": "tests check one unsatisfiable core, one satisfiable formula and seeded small formulas", "anchors": ["crates/logicaffeine_proof/src/sos.rs:26-298"]}
{"id": "C131", "title": "Cofactor decision diagrams", "statement": "Putting a formula in normal form keeps its models and is idempotent; the cofactor has the models of the formula with the variable fixed, and a formula is satisfiable exactly when one of its cofactors is. Every diagram that is built is accepted by the checker, has no cycle and shows that the formula has no model; over declared variables no diagram is built exactly when the formula has a model. A diagram without cycles that the checker accepts shows that the formula has no model; a diagram with a cycle can be accepted for a satisfiable formula.", "quantifier": "all formulas, variable counts and diagrams", "why_tests_cant": "tests check pigeonhole and parity families of small size and one corrupted diagram", "anchors": ["crates/logicaffeine_proof/src/cofactor.rs:45-172"]}
{"id": "C132", "title": "Quotient diagrams and reductions of cofactors", "statement": "A literal renaming that is total on a formula sends models of the image to models of the formula, and keeps satisfiability when it keeps the live variables apart. In an accepted quotient diagram without cycles and with such renamings no node has a model; the checker accepts satisfiable nodes when two variables share an image or when there is a cycle. Unit propagation, pure literal elimination and the whole reduction keep satisfiability, removing subsumed clauses keeps the models, unit propagation ends with the empty clause or without unit clauses, and the reduction ends on every formula.", "quantifier": "all formulas, renamings and diagrams", "why_tests_cant": "tests check pigeonhole and parity families of small size and one corrupted renaming", "anchors": ["crates/logicaffeine_proof/src/cofactor.rs:300-313", "crates/logicaffeine_proof/src/cofactor.rs:411-482", "crates/logicaffeine_proof/src/cofactor.rs:653-764"]}
{"id": "C133", "title": "Group cohomology: coboundary, cup product and Bockstein map", "statement": "The coboundary table holds, at the index of every tuple of group elements, the alternating sum of the cochain over the faces of the tuple modulo the modulus. For every group, modulus and degree the coboundary of a coboundary is zero. The coboundary test is exact: it answers true if and only if some cochain has the given coboundary; every coboundary is a cocycle. The cup product of two cocycles is a cocycle, so the cup square of a cocycle is one, and the Bockstein map sends cocycles modulo two to cocycles modulo two.", "quantifier": "all finite groups, positive moduli, degrees and cochains", "why_tests_cant": "tests check the groups of order two and three in low degrees", "anchors": ["crates/logicaffeine_proof/src/postnikov.rs:21-89", "crates/logicaffeine_proof/src/postnikov.rs:104-129"]}
{"id": "C134", "title": "Cubical complexes: boundary and closure", "statement": "A cube of dimension k has 2k listed boundary faces, all of dimension k - 1. In the boundary of the boundary of a cube every cube occurs an even number of times, so the boundary map over two elements squares to zero. The cells of dimension k of a complex built from top cells are exactly the iterated faces of dimension k of those cubes; every boundary face of a stored cell is stored, so looking it up cannot fail.", "quantifier": "all cubes, dimensions and lists of top cells (of mixed dimensions)", "why_tests_cant": "tests check Betti numbers of a few small grids", "anchors": ["crates/logicaffeine_proof/src/cubical.rs:18-70"]}
