{"id": "C01", "title": "No call begins after disconnect() (any number of threads)", "statement": "Once connection::disconnect() has returned for a slot (with either result), no invocation of that slot that starts later calls the slot's callable. This holds for emissions in progress, nested emissions and emissions of other threads.", "quantifier": "For all client programs, any number of threads, every interleaving, every slot and every handle of it.", "why_tests_cant": "The interleavings of a disconnect with emissions in other threads, and the re-entrant ways to disconnect from inside callbacks, are unbounded; a test samples a few.", "anchors": ["signals.hpp:slot::operator() (1381)", "signals.hpp:slot::disconnect (1352)", "signals.hpp:slot_state::disconnect (725)", "signals.hpp:connection::disconnect (1504)"]}
{"id": "C02", "title": "Single thread: disconnect() is final, even from inside the emission", "statement": "In a single-threaded program no callable is called after disconnect() through a handle of its slot has returned, also when the disconnect happens inside a callback of the very emission that would have reached the slot. With several threads a call that had already passed its connected() test may still start after disconnect() returned in another thread: the boundary is stated and refuted separately.", "quantifier": "For all single-threaded client programs, callbacks included; refutation for two threads.", "why_tests_cant": "Tests check chosen callbacks at chosen positions; the claim is about every nesting of callbacks, and the multi-threaded boundary needs an interleaving no test can force.", "anchors": ["signals.hpp:slot::operator() (1381)", "signals.hpp:slot::disconnect (1352)", "signals.hpp:signal::operator() (1780)"]}
{"id": "C03", "title": "disconnect() succeeds at most once per slot", "statement": "Over all copies of a connection and all threads, disconnect() returns true at most once for a given slot.", "quantifier": "For all programs, threads, interleavings, slots.", "why_tests_cant": "Racing disconnects from several threads and copies cannot be enumerated by tests.", "anchors": ["signals.hpp:slot_state::disconnect (725)", "signals.hpp:slot::disconnect (1352)", "signals.hpp:connection::disconnect (1504)"]}
{"id": "C04", "title": "disconnect() removes its own slot and nothing else", "statement": "A successful disconnect() through a handle takes exactly the handle's slot out of the signal's list, provided signal::disconnect(f) did not take that slot out before; then, because erase leaves m_Connected set and the index stale, it takes out some other slot (refuted variant with a witness).", "quantifier": "For all programs, threads, interleavings, positions of the slot in the list.", "why_tests_cant": "The index bookkeeping under arbitrary sequences of connects and swap-removals is an invariant over unbounded histories; the failure needs signal::disconnect(f) inside an emission.", "anchors": ["signals.hpp:signal::remove_slot (1808)", "signals.hpp:signal::erase (1826)", "signals.hpp:signal::add_slot (1798)", "signals.hpp:slot_state::m_Index (751)"]}
{"id": "C05", "title": "connected() tells the truth", "statement": "connection::connected() returns true exactly when the slot object still exists, its connected flag was set when it was connected and has not been cleared by a disconnect, and (for a slot with a tracked object) the object is alive. In particular once false it stays false.", "quantifier": "For all programs, threads, interleavings and handles.", "why_tests_cant": "The answer depends on the whole history of the slot, of its owners and of the tracked object.", "anchors": ["signals.hpp:connection::connected (1498)", "signals.hpp:slot::connected (1347)", "signals.hpp:slot_pmf_tracked::connected (944)"]}
{"id": "C06", "title": "The list of a signal follows a simple specification", "statement": "At every moment the list of slots of a signal equals the replay of its history: connect appends at the end, removing a slot moves the last slot into its place, a move transfers the list. The list never contains a slot twice.", "quantifier": "For all programs, threads, interleavings, signals and histories.", "why_tests_cant": "Refinement over unbounded histories of connects and removals interleaved with copy-on-write sharing.", "anchors": ["signals.hpp:signal::add_slot (1798)", "signals.hpp:signal::remove_slot (1808)", "signals.hpp:signal::erase (1826)", "signals.hpp:cow_ptr::detach (647)"]}
{"id": "C07", "title": "An emission works on the list as it was at one instant", "statement": "The slots an emission visits are those of the signal's list at one instant during the call of signal::operator(); connects, disconnects, destruction or moving of the signal afterwards do not change which slots it visits, nor their order.", "quantifier": "For all programs, callbacks, threads, interleavings, combiners.", "why_tests_cant": "Modification during emission can happen at every point of every nested callback and in every other thread.", "anchors": ["signals.hpp:signal::operator() (1780)", "signals.hpp:signal::read_slots (1858)", "signals.hpp:cow_ptr::write (621)"]}
{"id": "C08", "title": "Result of an emission with the default combiner", "statement": "With optional_last_value an emission that returns normally returns the result of the last visited slot that produced one, and a disengaged optional if no slot produced a result.", "quantifier": "For all slot lists, results, callbacks, threads.", "why_tests_cant": "Quantifies over all lists of results, with blocked, disconnected and expired slots in any position.", "anchors": ["signals.hpp:optional_last_value (1619)", "signals.hpp:signal::operator() (1780)"]}
{"id": "C09", "title": "No lost and no duplicate notification", "statement": "An emission with the default combiner that returns normally visits every slot of its list exactly once, in list order; a visited slot's callable is called exactly once unless at some instant of that visit the slot was blocked, disconnected or its tracked object dead.", "quantifier": "For all programs, callbacks, threads, interleavings.", "why_tests_cant": "Exactly-once delivery is a property of all interleavings and of all lists.", "anchors": ["signals.hpp:optional_last_value (1619)", "signals.hpp:slot_iterator (1084)", "signals.hpp:slot::operator() (1381)"]}
{"id": "C10", "title": "A blocked slot is not called", "statement": "If a slot is blocked during the whole of an invocation's test (in a single-threaded program: blocked when the emission reaches it), its callable is not called, and the emission goes on with the next slot.", "quantifier": "For all programs, threads, interleavings, ways of blocking (connection::block, connection_blocker).", "why_tests_cant": "Blocking and unblocking from callbacks and other threads interleaves with emissions in unboundedly many ways.", "anchors": ["signals.hpp:slot::operator() (1381)", "signals.hpp:connection::block (1516)", "signals.hpp:connection_blocker (1420)"]}
{"id": "C11", "title": "Blocking is a flag, not a count", "statement": "After any sequence of block()/unblock() calls and blocker constructions/destructions on a living slot, blocked() reports the most recent of them; in particular destroying one of two blockers unblocks the slot (nesting refuted).", "quantifier": "For all sequences of blocking operations by any threads.", "why_tests_cant": "History property over unbounded sequences of operations on several handles and blockers.", "anchors": ["signals.hpp:connection_blocker (1420)", "signals.hpp:slot_state::block (735)", "signals.hpp:slot_state::unblock (740)"]}
{"id": "C12", "title": "A throwing slot ends the emission and leaves the signal intact", "statement": "With the default combiner, when a callable throws, the exception leaves signal::operator(), no later slot of that emission is visited, no mutex is held because of it, and the slot list is as the callbacks left it.", "quantifier": "For all programs, positions of the throwing slot, lists, threads.", "why_tests_cant": "All positions, lists and nested emissions.", "anchors": ["signals.hpp:signal::operator() (1780)", "signals.hpp:optional_last_value (1619)", "signals.hpp:slot::operator() (1381)"]}
{"id": "C13", "title": "signal::disconnect(f) removes exactly the equal slots", "statement": "When operator== is a plain function and no comparison throws, signal::disconnect(f) (also with a pointer, or with a slot) removes exactly the slots equal to its argument, keeps all others (their order may change), and returns how many were removed.", "quantifier": "For all lists, callables, positions of the equal slots, any number of matches.", "why_tests_cant": "The swap-with-last loop re-examines moved elements; all lists and match patterns are needed.", "anchors": ["signals.hpp:signal::erase (1826)", "signals.hpp:signal::disconnect (1751)", "signals.hpp:slot operator== (1331)"]}
{"id": "C14", "title": "not_comparable_exception leaves the list unchanged", "statement": "When signal::disconnect(f) throws not_comparable_exception (and the client's operator== do not throw), no slot has been removed.", "quantifier": "For all lists and callables.", "why_tests_cant": "The exception can come at any element of any list, after other comparisons succeeded.", "anchors": ["signals.hpp:try_equals (417)", "signals.hpp:signal::erase (1826)", "signals.hpp:slot_pmf::equals (862)"]}
{"id": "C15", "title": "A throwing operator== loses no unequal slot", "statement": "When a client operator== throws or misbehaves inside signal::disconnect(f), every slot that was taken out had compared equal, no other slot is lost or duplicated, and the mutex is released. Earlier matches stay removed (strong guarantee refuted).", "quantifier": "For all lists, all behaviours of operator==, all positions of the throw.", "why_tests_cant": "Exception position times list shape is unbounded.", "anchors": ["signals.hpp:signal::erase (1826)", "signals.hpp:signal::disconnect (1751)"]}
{"id": "C16", "title": "Value category decides whether disconnect(f) can find a slot", "statement": "signal::disconnect(f) can only remove slots connected with an argument of the same type and the same value category (rvalue, lvalue, const lvalue): a slot connected from an lvalue functor is not removed by disconnect of an equal rvalue, whatever operator== says.", "quantifier": "For all callables, environments and lists.", "why_tests_cant": "Tests use one spelling; the claim is over all combinations of type and category and over every operator==.", "anchors": ["signals.hpp:slot (1262)", "signals.hpp:slot_func::equals (785)", "signals.hpp:signal::disconnect (1761)"]}
{"id": "C17", "title": "signal::disconnect(&C::m, shared_ptr) throws for tracked slots", "statement": "std::weak_ptr has no operator==, so signal::disconnect(f, sp) throws not_comparable_exception whenever the list contains a slot tracked with the same function and pointer types, and removes nothing.", "quantifier": "For all lists containing such a slot, in any position.", "why_tests_cant": "Tests with one tracked slot cannot cover all lists.", "anchors": ["signals.hpp:slot_pmf_tracked::equals (954)", "signals.hpp:try_equals (417)", "signals.hpp:is_equality_comparable (123)"]}
{"id": "C18", "title": "A tracked slot is never called on a dead object", "statement": "The callable of a slot that tracks an object is only called while the object is alive, and the object is not destroyed before that call has returned.", "quantifier": "For all programs, threads, interleavings with the last shared_ptr being dropped.", "why_tests_cant": "Races between dropping the last owner and an emission cannot be exhausted by tests.", "anchors": ["signals.hpp:slot_pmf_tracked::operator() (965, 1026)", "signals.hpp:to_weak (42)"]}
{"id": "C19", "title": "Tracking does not keep the object alive", "statement": "A tracked object is destroyed as soon as the client has dropped it and no invocation of a slot tracking it is in progress; being connected does not prolong its life.", "quantifier": "For all programs, any number of slots tracking the object, any threads.", "why_tests_cant": "Lifetime depends on all slots and invocations that refer to the object.", "anchors": ["signals.hpp:slot_pmf_tracked (930)", "signals.hpp:to_weak (42)"]}
{"id": "C20", "title": "A slot whose object died is dead but stays in the list", "statement": "After its tracked object died a slot is never called again and connected() is false, but nothing removes it from the signal's list: only disconnect or signal::disconnect(f) or the signal's end does.", "quantifier": "For all programs, threads, interleavings.", "why_tests_cant": "History property.", "anchors": ["signals.hpp:slot_pmf_tracked::operator() (965)", "signals.hpp:slot_pmf_tracked::connected (944)", "signals.hpp:signal::remove_slot (1808)"]}
{"id": "C21", "title": "Destroying a scoped_connection disconnects", "statement": "When the destructor of a scoped_connection returns, the slot it referred to at the time is disconnected or destroyed: no later invocation calls it.", "quantifier": "For all programs, threads, interleavings.", "why_tests_cant": "Same unbounded interleavings as for disconnect.", "anchors": ["signals.hpp:scoped_connection::~scoped_connection (1571)", "signals.hpp:connection::disconnect (1504)"]}
{"id": "C22", "title": "Exactly one scoped_connection is responsible for a moved connection", "statement": "Moving a scoped_connection empties the source; release() empties it and returns a plain connection; move assignment disconnects the old slot of the target first. An emptied scoped_connection disconnects nothing.", "quantifier": "For all states of the variables.", "why_tests_cant": "All combinations of sources, targets and their slots.", "anchors": ["signals.hpp:scoped_connection (1564)", "signals.hpp:connection::release (1599)"]}
{"id": "C23", "title": "Plain connection objects own nothing", "statement": "Copying, moving, swapping or destroying plain connection objects never disconnects, blocks or destroys a slot, and changes no signal's list.", "quantifier": "For all programs and states.", "why_tests_cant": "Quantifies over all states.", "anchors": ["signals.hpp:connection (1480)"]}
{"id": "C24", "title": "Handles after the signal is gone", "statement": "After a signal was destroyed, with no emission, disconnect or query of it in progress, every handle of its slots is harmless: valid(), connected(), blocked() and disconnect() return false without touching freed memory. While an emission over the old list still runs, or another thread is inside connected() or blocked() of a handle of the slot, disconnect() of a handle is undefined behaviour (refuted variant).", "quantifier": "For all programs and states.", "why_tests_cant": "Undefined behaviour is not observable by tests in general.", "anchors": ["signals.hpp:connection (1480)", "signals.hpp:slot::disconnect (1352)", "signals.hpp:signal::~signal (1662)"]}
{"id": "C25", "title": "Destroying a signal inside its own emission", "statement": "A signal may be destroyed from a callback of its own emission: the emission goes on over the list it copied and returns normally.", "quantifier": "For all lists and callbacks.", "why_tests_cant": "All positions and nestings.", "anchors": ["signals.hpp:signal::operator() (1780)", "signals.hpp:signal::~signal (1662)"]}
{"id": "C26", "title": "Moving a signal", "statement": "After signal b(std::move(a)), b has exactly the slots a had, in the same order. Handles obtained from a are not transferred: disconnect() on one, and any use of a other than destruction, is undefined behaviour (refuted variants). Move assignment is always undefined behaviour (no return statement).", "quantifier": "For all lists and states.", "why_tests_cant": "Undefined behaviour is not testable; all lists.", "anchors": ["signals.hpp:signal(signal&&) (1670)", "signals.hpp:signal::operator=(signal&&) (1678)"]}
{"id": "C27", "title": "A list is never modified while an emission walks over it", "statement": "No operation modifies a vector of slots that an emission in progress (in any thread) iterates over, and all modifications of a list happen with the signal's mutex held by the modifying thread.", "quantifier": "For all programs, threads, interleavings.", "why_tests_cant": "Data-race freedom of the list is a property of all interleavings.", "anchors": ["signals.hpp:cow_ptr::detach (647)", "signals.hpp:signal::add_slot (1798)", "signals.hpp:signal::remove_slot (1808)", "signals.hpp:signal::erase (1826)", "signals.hpp:signal::read_slots (1858)"]}
{"id": "C28", "title": "No deadlock when operator== and functor destructors do not re-enter", "statement": "If the client's operator== and functor destructors make no calls into the library, and do not drop tracked objects whose destructors do, then callables, combiners and the destructors of tracked objects may re-enter it arbitrarily (connect, disconnect, emit, from any thread) and no execution deadlocks, nor does a thread lock a mutex it holds. If they do re-enter, self-deadlock is possible (refuted variant).", "quantifier": "For all programs with that restriction, threads, interleavings.", "why_tests_cant": "Deadlock freedom quantifies over all interleavings.", "anchors": ["signals.hpp:signal::m_SlotMutex (1864)", "signals.hpp:signal::erase (1826)", "signals.hpp:signal::operator() (1780)"]}
{"id": "C29", "title": "No call leaves a mutex locked", "statement": "A signal's mutex is held only while some thread is inside connect, disconnect, the start of an emission or a move of that signal, also after exceptions: a thread executing client callbacks of an emission or destructors of tracked objects these let go, or that has returned from every call, holds none.", "quantifier": "For all programs, threads, interleavings, exceptions.", "why_tests_cant": "All exceptional exits in all interleavings.", "anchors": ["signals.hpp:signal (1646)", "signals.hpp:lock_type (1655)"]}
{"id": "C30", "title": "Well-behaved clients never reach undefined behaviour inside the library", "statement": "A client that does not destroy or move signals, only uses variables that exist, connects no empty slot, dereferences no iterator past the end, whose callbacks return what they declare, and whose operator== and functor destructors do not re-enter the library, never reaches undefined behaviour in the library, whatever its callbacks and threads do. std::terminate remains possible in three cases only: memory exhausted inside connection::disconnect, memory exhausted for the control block of a cow_ptr (its constructor is noexcept), a functor destructor that throws. Each listed fault really is undefined behaviour.", "quantifier": "For all such programs, threads, interleavings, allocation failures.", "why_tests_cant": "Undefined behaviour cannot be excluded by tests.", "anchors": ["signals.hpp:signal (1646)", "signals.hpp:slot (1250)", "signals.hpp:connection (1480)"]}
{"id": "C31", "title": "connect is all or nothing", "statement": "If connect throws (out of memory) the slot list is unchanged and no handle is created; if it returns, the list is extended by exactly the new slot, and the connection or scoped_connection returned is a new object that refers to that slot.", "quantifier": "For all states, all points of allocation failure.", "why_tests_cant": "Allocation failure at each point in each state is not tested.", "anchors": ["signals.hpp:signal::connect (1701)", "signals.hpp:signal::add_slot (1798)", "signals.hpp:cow_ptr::detach (647)"]}
{"id": "C32", "title": "Arguments seen by successive slots", "statement": "Every slot of an emission receives the argument values given to signal::operator() if no callable called before it in this emission moved from a by-value argument; reference arguments always alias the caller's objects. If an earlier callable takes a by-value argument, later slots see the moved-from value (refuted variant).", "quantifier": "For all lists, argument lists and callables.", "why_tests_cant": "All lists and combinations of by-value and by-reference parameters.", "anchors": ["signals.hpp:slot_iterator::do_invoke (1139)", "signals.hpp:signal::operator() (1780)"]}
{"id": "C33", "title": "A combiner sees the slots lazily and in its own order", "statement": "For an arbitrary combiner, an emission's result is what the combiner computes from the answers it got; each dereference of the iterator invokes the slot at that position anew, results are not cached, and no slot is invoked that the combiner did not dereference.", "quantifier": "For all combiners, lists, callbacks.", "why_tests_cant": "All combiners.", "anchors": ["signals.hpp:slot_iterator::operator* (1132)", "signals.hpp:signal::operator() (1780)"]}
{"id": "C34", "title": "Connecting a slot object copies it", "statement": "signal::connect(slot) stores an independent copy with the callable, functor state, blocked and connected flags the slot had; later changes of one do not affect the other. Connecting an empty slot is undefined behaviour (refuted variant).", "quantifier": "For all states of the slot.", "why_tests_cant": "All states and later histories.", "anchors": ["signals.hpp:slot(const slot&, signal_base*) (1284)", "signals.hpp:slot_state(const slot_state&) (688)", "signals.hpp:signal::connect (1689)"]}
{"id": "C35", "title": "disconnect() on a free-standing slot does nothing", "statement": "slot::disconnect() on a client's own slot object returns false and changes nothing.", "quantifier": "For all states.", "why_tests_cant": "All states.", "anchors": ["signals.hpp:slot::disconnect (1352)"]}
{"id": "C36", "title": "Slot equality is an equivalence", "statement": "If operator== of the stored types is an equivalence then operator== on slots is reflexive, symmetric and transitive, empty slots are equal to each other and to nothing else, != is its negation; it throws not_comparable_exception exactly when both slots have the same dynamic type and a compared member's type has no operator==.", "quantifier": "For all slots.", "why_tests_cant": "All triples of slots.", "anchors": ["signals.hpp:slot operator== (1331)", "signals.hpp:slot_func::equals (785)", "signals.hpp:slot_pmf::equals (862)", "signals.hpp:try_equals (417)"]}
{"id": "C37", "title": "Connecting twice gives two independent slots", "statement": "Each connect creates a new slot: the same callable connected twice is called twice per emission, and disconnecting or blocking through one handle does not affect the other.", "quantifier": "For all programs and states.", "why_tests_cant": "All interleavings of operations on both.", "anchors": ["signals.hpp:signal::connect (1701)", "signals.hpp:connection (1480)"]}
{"id": "C38", "title": "Signals do not interfere", "statement": "An operation on one signal, or through a handle of its slots, never changes the list of another signal.", "quantifier": "For all programs, threads, interleavings, pairs of signals.", "why_tests_cant": "All histories.", "anchors": ["signals.hpp:signal (1646)", "signals.hpp:slot::m_pSignal (1408)"]}
{"id": "C39", "title": "A signal itself is never blocked", "statement": "The m_Blocked flag of a signal is always false: no emission is ever suppressed as a whole.", "quantifier": "For all programs.", "why_tests_cant": "All histories, including moves.", "anchors": ["signals.hpp:signal::m_Blocked (1866)", "signals.hpp:signal::operator() (1782)"]}
{"id": "C40", "title": "Functor state belongs to the connected slot", "statement": "A stateful functor is copied on connect: state changes made by its calls are seen by later calls of the same slot, by no other slot, and not lost by copy-on-write of the list.", "quantifier": "For all programs and states.", "why_tests_cant": "All histories.", "anchors": ["signals.hpp:slot_func (768)", "signals.hpp:cow_ptr::detach (647)", "signals.hpp:signal::add_slot (1798)"]}
{"id": "C41", "title": "A slot is destroyed once and never while it is being called", "statement": "The slot object (and the functor in it) is destroyed at most once, not while its callable is running, and is never called or found connected afterwards.", "quantifier": "For all programs, threads, interleavings.", "why_tests_cant": "Use-after-free and double destruction under all interleavings.", "anchors": ["signals.hpp:signal::slot_ptr_type (1650)", "signals.hpp:signal::operator() (1787)", "signals.hpp:connection::disconnect (1506)"]}
{"id": "C42", "title": "cow_ptr has value semantics", "statement": "Writing through one cow_ptr never changes what another cow_ptr reads, as long as no reference obtained from an earlier write() is used after copying (with such a reference it does: refuted variant).", "quantifier": "For all sequences of constructions, copies, assignments, moves, reads and writes.", "why_tests_cant": "All aliasing histories.", "anchors": ["signals.hpp:cow_ptr (512)", "signals.hpp:cow_ptr::detach (647)", "signals.hpp:cow_ptr::write (621)"]}
{"id": "C43", "title": "cow_ptr copies only when shared", "statement": "write() copies the value exactly when the pointer is shared, reads never copy, and == compares identity: a copy equals its source until one of them is written.", "quantifier": "For all sequences of operations.", "why_tests_cant": "All aliasing histories.", "anchors": ["signals.hpp:cow_ptr::detach (647)", "signals.hpp:cow_ptr::operator== (628)"]}
{"id": "C44", "title": "optional behaves like a mathematical option", "statement": "Construction, assignment, emplace, reset, swap, observation and value_or of opt::optional<T> agree, for every sequence of operations, with the option type; value() throws bad_optional_access exactly when disengaged.", "quantifier": "For all sequences of operations on any number of optionals.", "why_tests_cant": "All sequences.", "anchors": ["optional.hpp:optional (755)", "optional.hpp:optional_base (128)", "optional.hpp:tc_optional_base (509)"]}
{"id": "C45", "title": "optional constructs and destroys its value exactly once", "statement": "Over every sequence of operations each contained object is constructed once and destroyed once, never used before construction or after destruction.", "quantifier": "For all sequences of operations, including throwing constructors.", "why_tests_cant": "Lifetime balance over all sequences.", "anchors": ["optional.hpp:optional_base (128)", "optional.hpp:optional_base::destroy", "optional.hpp:optional_base::construct"]}
{"id": "C46", "title": "optional under throwing constructors and assignments", "statement": "If a contained constructor throws during construction or emplace the optional is disengaged; if an element assignment throws, its engagement is unchanged; no object leaks.", "quantifier": "For all operations and throw points.", "why_tests_cant": "All throw points.", "anchors": ["optional.hpp:optional_base (128)", "optional.hpp:optional::emplace"]}
{"id": "C47", "title": "The scalar representation of optional is equivalent to the general one", "statement": "For scalar types optional uses tc_optional_base; every operation gives the same observable result as optional_base would.", "quantifier": "For all sequences of operations.", "why_tests_cant": "All sequences on both representations.", "anchors": ["optional.hpp:tc_optional_base (509)", "optional.hpp:optional_base (128)"]}
{"id": "C48", "title": "Comparison of optionals", "statement": "If < and == of T form a total order, the comparison operators between optionals, with nullopt and with values form one total order with disengaged as least element. For partial orders (NaN) optional/optional and optional/value comparison disagree (refuted variant).", "quantifier": "For all values and element orders.", "why_tests_cant": "All values, all orders.", "anchors": ["optional.hpp:relational operators (1212-1536)"]}
{"id": "C49", "title": "optional<T&> rebinds", "statement": "Assigning to an optional<T&> rebinds it and never writes to the referred object; copies alias the same object.", "quantifier": "For all sequences of operations.", "why_tests_cant": "All sequences.", "anchors": ["optional.hpp:optional<T&> (1040)"]}
{"id": "C50", "title": "optional<void> is always disengaged", "statement": "No operation makes an optional<void> engaged, so a void signal's emission always returns a disengaged optional.", "quantifier": "For all operations and emissions.", "why_tests_cant": "All histories.", "anchors": ["optional.hpp:optional<void> (1135)", "signals.hpp:slot_iterator<void> (1150)"]}
{"id": "C51", "title": "Argument unpacking uses each tuple element once, in order", "statement": "make_index_sequence<N> is 0, 1, ..., N-1, so slot_iterator passes every argument exactly once in order.", "quantifier": "For all N.", "why_tests_cant": "All N.", "anchors": ["signals.hpp:make_integer_sequence (1066)", "signals.hpp:slot_iterator::do_invoke (1139)"]}
{"id": "C52", "title": "What a call returns is what that call did", "statement": "The result handed to the caller agrees with what the call itself did: disconnect() returns true exactly when this call cleared the flag of the slot; destroying or assigning to a scoped_connection disconnects what it held; valid(), connected() and blocked() return the answer they computed; block and unblock set the flag of the slot they refer to; an emission returns what its combiner returned, and the combiner got from each slot what the function of that slot returned; the same for calling a slot object.", "quantifier": "For all programs, all numbers of threads, all schedules, all client code run inside the call.", "why_tests_cant": "Other threads and nested client code do the same things during the call; tests cannot tell in all interleavings which call was responsible.", "anchors": ["signals.hpp:connection (1480)", "signals.hpp:scoped_connection (1564)", "signals.hpp:signal::operator() (1780)", "signals.hpp:slot::operator() (1381)"]}
{"id": "C53", "title": "Connections, blockers and slot objects behave as values", "statement": "Every operation on connections, scoped connections, blockers and slot objects writes exactly the variables it names: a copy refers to the same slot and the original keeps it, a move leaves the source empty, swap exchanges, assignment to a scoped_connection that refers to a slot first disconnects it and then takes the new one, copying a slot object copies its flags; no other variable and no signal changes.", "quantifier": "For all states of all programs, all operands including self-assignment and self-swap.", "why_tests_cant": "All combinations of empty, dead, scoped and aliasing operands, with other threads running.", "anchors": ["signals.hpp:connection (1480)", "signals.hpp:connection_blocker (1423)", "signals.hpp:scoped_connection (1564)", "signals.hpp:slot (1250)"]}
{"id": "C54", "title": "A tracked slot is tested again once its object is held", "statement": "A slot that tracks an object is only called if it is still connected at a moment at which the call already holds the object; a disconnect that comes between the first test and locking the object prevents the call.", "quantifier": "For all programs, all numbers of threads, all interleavings.", "why_tests_cant": "The window between the two tests is a few instructions.", "anchors": ["signals.hpp:slot_pmf_tracked::operator() (965, 1026)"]}
{"id": "C55", "title": "Library code runs only boundedly many steps by itself", "statement": "A thread that is in library code reaches client code (a slot function, a comparison of two slots, a functor's destructor, a combiner, or the caller to which the call returns) after at most 8 of its own steps, however many slots and signals there are and whatever other threads do; waiting for a mutex is not a step.", "quantifier": "For all reachable states, all threads, all interleavings.", "why_tests_cant": "A test sees finitely many list lengths and schedules.", "anchors": ["signals.hpp:signal (1650)", "signals.hpp:slot::operator() (1381)", "signals.hpp:connection (1480)"]}
{"id": "C56", "title": "cow_ptr and make_cow when memory runs out", "statement": "A defined call succeeds if memory suffices. It asks for memory exactly to make an object and to write to a shared one. If the object cannot be allocated or copied the caller gets the exception and nothing has changed; if the control block cannot be allocated, the exception meets a noexcept function and the program is terminated.", "quantifier": "For all sequences of operations on any number of cow_ptrs, all allocation failures.", "why_tests_cant": "A failure of exactly the second allocation, in every sharing state.", "anchors": ["signals.hpp:cow_ptr::cow_ptr(T*) (521)", "signals.hpp:cow_ptr::operator=(T*) (552)", "signals.hpp:cow_ptr::detach (647)"]}
{"id": "C57", "title": "The combiners of the examples and tests", "statement": "With maximum_value, max_or_default and aggregate_values an emission visits every slot of the list once, in order, until one throws. If none throws the result is a maximum of the values returned (nothing, or T(), if there are none), respectively the list of the values returned, in order; otherwise it is the exception of the last slot visited.", "quantifier": "For all signals with these combiners, all lists and values, any transitive irreflexive comparison of the element type, all interleavings.", "why_tests_cant": "All lists of values, with blocked, expired and concurrently disconnected slots, and partially ordered element types.", "anchors": ["examples/maximum_value/maximum_value.cpp (4)", "examples/aggregate_values/aggregate_values.cpp (5)", "tests/signal_tests.cpp:max_or_default (351)", "signals.hpp:slot_iterator (1080)", "optional.hpp:operator> (1234)"]}
{"id": "C58", "title": "Data races inside the library", "statement": "With signals made and destroyed under the usual client synchronisation, the mutexes and the reference counts of the vectors order every pair of conflicting accesses to the pointer to a signal's vector of slots and to the indices of slots, and order every access to a vector after an earlier write to it. The only accesses that can race are a read of a vector by one thread and a later write to it in place by another; the destruction of a vector is ordered after every other access to it. That race exists in the code: cow_ptr writes in place when use_count() is 1, which does not synchronise with an emission that gave up its copy in another thread. If use_count() were an acquire operation there would be no race.", "quantifier": "For all client programs, slots and combiners, any number of threads, all interleavings; happens-before is the transitive closure of thread order and release/acquire pairs.", "why_tests_cant": "A data race is a property of the happens-before order, not of observed values; on common hardware and with a mutex next to it the race never shows.", "anchors": ["signals.hpp:cow_ptr::detach (647)", "signals.hpp:signal::operator() (1780)", "signals.hpp:read_slots (1858)", "signals.hpp:add_slot (1800)", "signals.hpp:signal::remove_slot (1808)", "signals.hpp:m_Index (751)"]}
{"id": "C59", "title": "Which callables connect and disconnect accept", "statement": "The trait is_invocable_r agrees with the standard's INVOKE for pointers to members. connect(m, p), connect_scoped(m, p) and disconnect(m, p) are rejected exactly if m cannot be invoked on p as it is passed; they are accepted exactly if moreover the slot's own copy of p (an lvalue, without const, or a shared_ptr) can be copied and invoked, and the result becomes an R without a user-defined conversion, since the slot makes an optional<R> of it; otherwise they fail inside the library. So a function returning const char* passes the constraints of a signal returning std::string and does not compile. For copyable pointers, reference_wrapper, shared_ptr and non-const lvalues of copyable classes this is the only way to fail inside the library; a weak_ptr is always rejected although the slot would work. connect(m) with the object as first argument fails inside the library exactly for an object passed by value and for such results. connect(f) requires f to be callable as a temporary and, inside, as an lvalue and copyable; disconnect(f) requires it to be callable as passed, so some functions can be connected and not named again for disconnect, and the other way round.", "quantifier": "For all classes, inheritance, copy constructors and conversions, all pointers to members with any qualifiers, all object arguments of the modelled kinds, and all function objects.", "why_tests_cant": "A test suite has to compile, so it contains no rejected or failing call, and it cannot range over types.", "anchors": ["signals.hpp:traits (177-413)", "signals.hpp:invoke_helper (440-498)", "signals.hpp:slot_func (770)", "signals.hpp:slot_pmf (838)", "signals.hpp:slot_pmf_tracked (923)", "signals.hpp:signal::connect (1698, 1711)", "signals.hpp:signal::connect_scoped (1742)", "signals.hpp:signal::disconnect (1758, 1770)", "optional.hpp:optional::optional (790)"]}
{"id": "C60", "title": "When a slot is destroyed and who runs its functor's destructor", "statement": "A slot lives exactly as long as the list of a signal not destroyed yet contains it, or an emission over a copy of such a list, a disconnect() or a query or blocking operation through a handle is in progress with it. The thread that gives up the last of these destroys it and runs the functor's destructor at once, before it does anything else; the same goes for tracked objects and their destructors; nothing else starts a destructor. This may be a thread that only calls connected().", "quantifier": "For all reachable states, all threads, all interleavings.", "why_tests_cant": "Which thread gives up the last reference depends on the interleaving; the window inside a query is a few instructions.", "anchors": ["signals.hpp:connection (1480)", "signals.hpp:connection_blocker (1423)", "signals.hpp:signal::operator() (1780)"]}
{"id": "C61", "title": "Threads that only emit do not disturb each other", "statement": "If all threads only emit and query, and the callables and combiners do no more than that (they may emit other or the same signals again), every thread does in every interleaving exactly what it would do if it ran alone, calls the same slots with the same arguments, gets the same results, and nothing is undefined that would not be undefined in a single thread. If every thread comes to its end alone, all come to their end under every fair schedule. In particular n threads that emit m times each call every slot n*m times.", "quantifier": "For all numbers of threads, all programs, all reachable starting states, all interleavings.", "why_tests_cant": "The repository's InvokeThreaded and ThreadedCrossed run a few threads and see some of the interleavings.", "anchors": ["signals.hpp:signal::operator() (1780)", "signals.hpp:signal::read_slots (1858)", "signals.hpp:slot_iterator (1080)", "tests/signal_tests.cpp:InvokeThreaded (243)", "tests/signal_tests.cpp:ThreadedCrossed (329)"]}
{"id": "C62", "title": "The library's own tests and examples", "statement": "The tests of signal_tests.cpp, slot_tests.cpp, connection_tests.cpp and cow_tests.cpp that do not start threads, and InvokeThreaded and ThreadedCrossed, find what they expect, and the examples find the values their comments promise and call their functions in the order in which README.md shows the output; none of them runs into undefined behaviour. So the model, about which everything else is proved, agrees with the documented behaviour of the code. The threads of ThreadedConnect, after which that test expects nothing, meet nothing undefined either and none of them waits for ever.", "quantifier": "For every schedule in which memory suffices; for InvokeThreaded and ThreadedCrossed for every interleaving of their threads, for ThreadedCrossed also for every number of rounds; for ThreadedConnect for every interleaving and any number of threads, rounds and emissions.", "why_tests_cant": "These are the tests; here they are run on the model, which checks the model, and absence of undefined behaviour, which a passing test does not show.", "anchors": ["tests/signal_tests.cpp", "tests/slot_tests.cpp", "tests/connection_tests.cpp", "tests/cow_tests.cpp", "examples", "README.md"]}
{"id": "C63", "title": "What an emission means", "statement": "As long as nobody changes anything, emissions behave as a plain recursive definition says: an emission runs the combiner over the slots in the list; dereferencing an iterator calls the slot there unless it is blocked, disconnected or its object is gone; the slot returns what its callable returned, wrapped, or throws what it threw; later slots get what the callable left of the arguments; the default combiner calls the slots in order and returns the last value there was, or stops at the first exception. Callables and combiners may emit again. Each program has at most one such meaning, every thread that finishes has done what its program means, whatever the interleaving, and if all programs have a meaning nothing is undefined and all finish.", "quantifier": "For all programs, callables and combiners that only emit and query, all reachable states in which the threads begin, all numbers of threads and all interleavings.", "why_tests_cant": "The claim relates all programs, nested emissions to any depth and all schedules to one definition.", "anchors": ["signals.hpp:signal::operator() (1780)", "signals.hpp:optional_last_value (1619)", "signals.hpp:slot_iterator::operator* (1132)", "signals.hpp:slot::operator() (1381)", "signals.hpp:slot_func, slot_pmf, slot_pmf_tracked::operator() (795, 873, 965)", "tests/signal_tests.cpp:ThreadedCrossed (329)"]}
{"id": "C64", "title": "Clients that keep to the rules of ownership are safe", "statement": "There are rules that every piece of client code can keep on its own, without knowing what other threads do: it uses only variables it made itself (connections, blockers, slots, tracked objects, signals) or things that are shared and never destroyed (signals and integer locations), destroys each of its own at most once and not before it stops using it, connects callables that refer only to shared things, passes only shared locations, does not move signals, calls or copies a slot only if it holds a callable, and a callable returns a value of the right type while destructors do not throw. If all code keeps them (thread programs, callables, combiners, operator== and destructors, the last two without locking a signal), the only thing that can go wrong is std::terminate when memory runs out; with enough memory nothing undefined happens and as long as some thread has not finished there is one that can go on. If operator== or destructors do lock signals, a thread waiting for itself is the only other possibility.", "quantifier": "For all clients that keep the rules, all numbers of threads, all interleavings and all failures of memory; threads may begin in any reachable state in which what they share and own lives.", "why_tests_cant": "A test shows that one client did not crash in one interleaving; the claim is that rules which can be checked locally exclude undefined behaviour for every client and every interleaving.", "anchors": ["signals.hpp:signal (1646)", "signals.hpp:slot_impl::disconnect (725)", "signals.hpp:slot (1250)", "signals.hpp:connection_blocker (1420)", "signals.hpp:connection (1480)", "signals.hpp:scoped_connection (1564)", "tests/signal_tests.cpp:ThreadedConnect (277)"]}
{"id": "C65", "title": "Everything comes to an end", "statement": "If calls made by callables go to smaller arguments (there is a measure on argument lists such that a callable called with some arguments emits, and calls slots, only with arguments of smaller measure; combiners and the destructors of tracked objects do not emit, and what runs in destructors makes no new tracked objects; moving from arguments does not change the measure) and operator== and destructors of functors lock no signal, then no run of the library goes on for ever, and under every schedule that gives each thread its turn again and again all threads finish unless something undefined happens. Clients that keep to the rules of C64 and have enough memory finish without anything undefined. The library itself adds no loop: no livelock, no retry, no waiting that does not end.", "quantifier": "For all clients, all numbers of threads and slots, all depths of recursion, all infinite fair schedules, all failures of memory.", "why_tests_cant": "A test that ends shows that one run ended; termination under all fair schedules is a property of infinite runs.", "anchors": ["signals.hpp:signal::operator() (1780)", "signals.hpp:signal::erase (1826)", "signals.hpp:slot::operator() (1381)", "signals.hpp:optional_last_value (1619)", "tests/signal_tests.cpp:ThreadedConnect (277)", "tests/signal_tests.cpp:ThreadedCrossed (304)"]}
{"id": "C66", "title": "When nothing is running, the list is what the handles say", "statement": "A slot in a signal's list that no thread is just disconnecting has its connected flag set, unless it was connected from a slot object whose flag was clear or its tracked object died in the course of a call (with one thread neither happens); and unless signal::disconnect(f) removed something, every slot whose flag is set is in the list of the signal it was connected to (or in one that signal was moved into). So when all threads have finished, in a client that connects functions and has not moved signals, a slot is in the list of a signal exactly if it was connected to it and has not been disconnected. A client that only makes scoped connections and destroys each of them (on every path, exceptions included) leaves no connection and, when it connects functions only, an empty list in every living signal; ThreadedConnect does, with any numbers of rounds and emissions, under every fair schedule. If a tracked object dies between the check and the lock of one call, its slot stays in the list for good although its scoped connection has been destroyed.", "quantifier": "For all clients, all numbers of threads, signals and slots, all schedules, all failures of memory.", "why_tests_cant": "The tests look at the list only through emissions after single-threaded phases; that nothing is left behind after every interleaving of connects, disconnects, emissions and dying objects cannot be enumerated.", "anchors": ["signals.hpp:slot::disconnect (1352)", "signals.hpp:signal::remove_slot (1808)", "signals.hpp:slot_impl_pmf_tracked (964)", "signals.hpp:scoped_connection::~scoped_connection (1571)", "signals.hpp:signal::connect (1688)", "tests/signal_tests.cpp:connect_invoke (264)"]}
{"id": "C67", "title": "Threads that connect and emit: how many calls there are", "statement": "The test ThreadedConnect for all numbers. From a signal without slots, let some threads each n times make a scoped connection, emit m times and let go of the connection. Whatever the schedule, a thread that is through (and was not refused memory) has called slots at least n*m times, and at most n*m times the number of threads at work: no emission misses the slot its own thread has connected, however often other threads change the list meanwhile; none calls a slot twice; none calls a slot let go of before it began. A thread alone at work makes exactly n*m calls (the test's EXPECT_EQ(i, 10000)); N threads under every fair schedule come to an end with between N*n*m and N*N*n*m calls, and both bounds are reached.", "quantifier": "For all numbers of threads, rounds and emissions, all schedules, all failures of memory (for the bounds of one thread), all fair schedules (for the end).", "why_tests_cant": "The test asserts nothing about its threaded part, since the number of calls depends on the interleaving; the bounds quantify over all interleavings of list copies and emissions.", "anchors": ["tests/signal_tests.cpp:connect_invoke (264)", "tests/signal_tests.cpp:ThreadedConnect (277)", "signals.hpp:signal::connect (1688)", "signals.hpp:signal::operator() (1780)", "signals.hpp:cow_ptr (1063)", "signals.hpp:scoped_connection::~scoped_connection (1571)"]}
{"id": "C68", "title": "Destructors of tracked objects", "statement": "A tracked object is destroyed in the thread that gives up its last owner, at that moment: in the client's reset() of its shared_ptr, or at the end of the slot call that had locked the object (so after the member function has returned, and possibly in a thread that does not own the object otherwise). It is destroyed at most once. Its destructor may call into the library: it may disconnect, connect and emit the very signals its slots are connected to. From its beginning on no thread calls a slot that tracks the object, not even an emission the destructor starts itself or one already in progress. If operator== and functor destructors leave the library alone, the destructor runs without any signal's mutex held, so it cannot deadlock on one. If a functor that owns the object is destroyed by erase-by-function, the destructor runs under the signal's mutex and a disconnect in it locks the mutex a second time (refuted variant); disconnect() of a handle does not have this problem.", "quantifier": "For all clients, all numbers of threads and slots, all interleavings, all behaviours of destructors.", "why_tests_cant": "Which thread runs the destructor depends on the interleaving of reset() and the locks taken by emissions; the tests' objects have trivial destructors.", "anchors": ["signals.hpp:slot_pmf_tracked::operator() (965, 1026)", "signals.hpp:signal::erase (1826)", "signals.hpp:slot::operator() (1381)", "signals.hpp:signal::disconnect (1751)"]}
{"id": "C69", "title": "The life of slot objects under the memory model", "statement": "A slot object (with the client's functor in it) is made once, before any thread does anything else with it, and destroyed at most once, by whoever gives up the last shared_ptr, after everything else that is done with it: no thread ever uses a slot object that does not exist. In the happens-before order of mutexes and reference counts, making the object comes before every use and before its destruction, and a slot that is destroyed together with its list is destroyed after all its uses. For a slot that was disconnected this is false: the disconnecting thread may destroy the functor while an earlier call of the functor by another thread, though over, does not happen before the destruction (refuted variant, even if all atomic flags synchronise and locking a weak_ptr does). This and the race of C58 are the only data races; both come from cow_ptr's use_count() and disappear if it acquires. The actions meant are tied to the log: every call, return, skipped call, query, disconnection and death of a slot goes with the use, creation or destruction of the object that it stands for.", "quantifier": "For all clients, all numbers of threads, all interleavings; happens-before over all actions of a run.", "why_tests_cant": "Happens-before is not observable; on common hardware the unordered destruction looks ordered.", "anchors": ["signals.hpp:cow_ptr::detach (647)", "signals.hpp:signal::remove_slot (1808)", "signals.hpp:signal::erase (1826)", "signals.hpp:signal::operator() (1780)", "signals.hpp:slot::operator() (1381)", "signals.hpp:connection::disconnect (1504)"]}
{"id": "C70", "title": "The life of tracked objects under the memory model", "statement": "An object that slots track is made once, before any call uses it, and destroyed at most once, by the thread that gives up the last shared_ptr (the client's reset, or the end of a call that holds it), after every use: no call of a tracked member function ever runs on an object that does not exist. In the happens-before order of mutexes and reference counts every use by a call, whichever thread makes it, comes before the destruction of the object; and if slots that track the object are connected after it was made, that it was made comes before every use, also for threads that only find the slot in the list of a signal. There are no data races on tracked objects; the races of C69 stay the only ones. The call of the member function and its return are uses; creation and death are as the log says.", "quantifier": "For all clients, all numbers of threads, all interleavings; happens-before over all actions of a run. Made-before-used: for objects made before a slot that tracks them is connected.", "why_tests_cant": "Happens-before is not observable, and a test sees a few interleavings of call and reset.", "anchors": ["signals.hpp:slot_pmf_tracked::operator() (965, 1026)", "signals.hpp:slot_pmf_tracked::slot_pmf_tracked (939, 1000)", "signals.hpp:slot_pmf_tracked::connected (944, 1005)", "signals.hpp:slot::operator() (1381)", "signals.hpp:signal::operator() (1780)"]}
{"id": "C71", "title": "Operations on connections act as those of a sequential object", "statement": "connect, disconnect (also by the destructor of and assignment to scoped connections), connected(), blocked(), valid(), block() and unblock() (also by blockers) are linearizable: each call that refers to a slot performs one act, at one moment between its beginning and its end, and taken in the order of those moments the acts are a run of a sequential table of slots (exists, connected, blocked, tracked object) in which every result is right for the state its predecessors left. disconnect returns true exactly for the act that finds the slot and its flag set; a query gives the answer of that moment; a connect that throws does nothing; block on a slot already gone does nothing. The table is what is in memory. If one call begins after another returned, its act comes later. Nothing else changes the table, except that slots and objects end when nobody owns them, that clients make objects, and that an emission disconnects a slot whose object it finds gone.", "quantifier": "For all clients, all numbers of threads, all interleavings (sequentially consistent), allocation failures included.", "why_tests_cant": "A test sees some interleavings, and cannot see at what moment a call took effect.", "anchors": ["signals.hpp:connection::valid (1493)", "signals.hpp:connection::connected (1498)", "signals.hpp:connection::disconnect (1504)", "signals.hpp:connection::blocked (1510)", "signals.hpp:connection::block (1516)", "signals.hpp:scoped_connection (1571, 1592)", "signals.hpp:connection_blocker (1426, 1437, 1452)", "signals.hpp:slot_state::disconnect", "signals.hpp:signal::connect"]}
{"id": "C72", "title": "Who waits for whom", "statement": "A thread waits only in a step of connect, disconnect (also by scoped connections and assignment to them), disconnect(f), the start of an emission or a move of a signal, and then it waits for another thread that is inside one of these on the same signal, after its lock and before its unlock. All other operations never wait, whoever has a mutex: connected(), blocked(), valid(), block and unblock, blockers, calls of slots. A thread never waits while all others run code outside those sections, as slot functions are, however long they take. Between the lock and the unlock a call takes at most three steps of its own, none of which waits; only disconnect(f) is interrupted there, by the client's operator== and by destructors of functors, which may take as long as they like.", "quantifier": "For all clients, all numbers of threads, all interleavings (sequentially consistent), allocation failures included.", "why_tests_cant": "A test sees some interleavings; that a thread does not wait in any is not observable.", "anchors": ["signals.hpp:signal::m_SlotMutex (1864)", "signals.hpp:signal::add_slot (1798)", "signals.hpp:signal::remove_slot (1808)", "signals.hpp:signal::erase (1826)", "signals.hpp:signal::read_slots (1858)", "signals.hpp:signal(signal&&) (1670)", "signals.hpp:connection::connected (1498)", "signals.hpp:connection::block (1516)"]}
{"id": "C73", "title": "Operations on signals act as those of sequential lists", "statement": "connect, disconnect of a connection, disconnect(f), emission and move of a signal are linearizable on the lists of slots of the signals. Each call acts on a list once, at one moment between its beginning and its end: connect appends a slot, disconnect takes out one slot or finds none to take out, disconnect(f) finds a list and leaves one from which the slots it counts are missing, emission reads the list, move gives the list to a new signal and empties the old one. Taken in the order of those moments the acts are a run of sequential lists, in which every act finds what its predecessors left; disconnect(f) is one act although the client's operator== runs in the middle of it. The lists are what is in memory whenever nobody has the mutex. Every act is that of a call in progress of the kind that asks for it. disconnect acts on a list exactly if it finds the slot connected; connect that throws does nothing; disconnect(f) that runs out of memory before it begins does nothing. If one call begins after another returned, its act comes later.", "quantifier": "For all clients, all numbers of threads, all interleavings (sequentially consistent), allocation failures included.", "why_tests_cant": "A test sees some interleavings, and cannot see at what moment a call took effect.", "anchors": ["signals.hpp:signal::add_slot (1798)", "signals.hpp:signal::remove_slot (1808)", "signals.hpp:signal::erase (1826)", "signals.hpp:signal::read_slots (1858)", "signals.hpp:signal(signal&&) (1670)", "signals.hpp:signal::operator()"]}
{"id": "C74", "title": "Lists are copied only under emissions", "statement": "The vector of slots of a signal is copied only while an emission of that vector is in progress, in whatever thread; otherwise connect, disconnect and disconnect(f) change it in place. No vector belongs to two signals. A call makes at most one vector; only construction of a signal, connect, disconnect and disconnect(f) make any, and emission never does. Hence disconnect, which is noexcept, can terminate the program for lack of memory only while an emission walks over the list of the signal; the only other causes of termination are a destructor of a functor that throws and lack of memory, where it does not throw, when a signal is constructed or a list copied.", "quantifier": "For all clients, all numbers of threads, all interleavings (sequentially consistent), all failures of allocation.", "why_tests_cant": "Copies are not visible to a client, and whether one is made depends on the interleaving; running out of memory in just that moment is not tested.", "anchors": ["signals.hpp:cow_ptr::write (621)", "signals.hpp:cow_ptr::detach (647)", "signals.hpp:signal::add_slot (1798)", "signals.hpp:signal::remove_slot (1808)", "signals.hpp:signal::erase (1826)", "signals.hpp:signal::read_slots (1858)", "signals.hpp:slot::disconnect (1352)", "signals.hpp:signal::operator() (1780)"]}
{"id": "C75", "title": "What an argument given to an optional means", "statement": "For every T and every argument a, overload resolution for optional<T> x(a), optional<T> x = a and x = a is never ambiguous, and chooses by the type of a: nullopt makes x empty; a T is copied, or moved if it is a non-const rvalue; an optional<T> is copied or moved as a whole; another optional<U> is converted inside, if T can be made of a U; anything else is converted to T. In particular an optional<U> given to an optional<optional<U>> always becomes its value, engaged or not, also where operator= first chooses the template for optional<U>. Only non-const rvalues are moved from. Implicit initialisation means what direct initialisation means; an argument other than an optional can be assigned exactly if it can be converted implicitly. Optionals of different types do not convert implicitly, and an argument that needs a user-defined conversion to T can initialise an optional<T> directly but cannot be assigned to one (optional<std::string> x; x = \"a\" does not compile).", "quantifier": "For all types built from client types with optional, all relations of conversion and constructibility between client types, arguments of any constness and value category.", "why_tests_cant": "Each test instantiates one T and one argument; overload sets behave differently for nested optionals and for types that convert to each other.", "anchors": ["optional.hpp:optional constructors (778-836, 898-915)", "optional.hpp:optional::operator= (843-884)", "optional.hpp:optional_base::assign (250-343)", "optional.hpp:is_optional_constructible (117)"]}
{"id": "C76", "title": "What an optional<T&> can refer to", "statement": "For every T, const or not, and every argument a: optional<T&> x(a), optional<T&> x = a, x.emplace(a) and construction from (in_place, a) compile exactly if a is an lvalue that is a T or derived from T and not more const than T, and x then refers to that lvalue; construction also from nullopt (x refers to nothing) and from an optional<T&> (x refers to the same object). x = a compiles exactly for nullopt and for an optional<T&>. So, whatever conversions the program defines, an optional<T&> is never made to refer to a temporary or to drop const, assignment of an object never compiles (it could mean assigning through or rebinding), and no overload resolution is ambiguous.", "quantifier": "For all types of the client, all relations of conversion and derivation between them, arguments of any type, constness and value category.", "why_tests_cant": "That something does not compile is not tested by running a program, and a reference to a temporary may seem to work when tested.", "anchors": ["optional.hpp:optional<T&> constructors (1057-1064)", "optional.hpp:optional<T&>::operator= (1068-1084)", "optional.hpp:optional<T&>::emplace (1086-1091)"]}
{"id": "C77", "title": "What can be given to an optional<void>", "statement": "An optional<void> can be constructed from nullopt and from an optional<void> and from no other argument, while every argument can be assigned to it and emplaced in it: overload resolution between operator=(nullopt_t), the template operator=(U&&) and the copy assignment the compiler declares, and between emplace(U&) and emplace(U&&), always chooses one function. An object of any other type is assigned by the template; emplace takes lvalues, const or not, by U& and rvalues, const ones too, by U&&.", "quantifier": "For all types of arguments, constness and value categories.", "why_tests_cant": "A test gives one argument; that a call is not ambiguous, or does not compile, is not observed by running a program.", "anchors": ["optional.hpp:optional<void> constructors (1145-1147)", "optional.hpp:optional<void>::operator= (1151-1159)", "optional.hpp:optional<void>::emplace (1161-1167)"]}
{"id": "C78", "title": "Which constructor of slot is chosen; copying a slot that is not const recurses without end", "statement": "The constructors of slot that connect and disconnect call are the intended ones: for a function object with a signal_base* the one for function objects; for a pointer to a member and an object the one that tracks exactly if the object converts to a weak_ptr, also if it is a pointer to a signal; connect(slot) copies the slot. But a slot is copied only from a const lvalue and moved only from a non-const rvalue: for a non-const lvalue (slot b(a)) or a const rvalue, the unconstrained template slot(Func&&) is better than the copy constructor, and makes a slot_func whose member is a slot made of the same argument, again by the template: copying recurses without end.", "quantifier": "For all types of callables, arguments of any constness and value category, all depths of recursion.", "why_tests_cant": "The tests of the repository copy no slot; which constructor is chosen is not visible where it works.", "anchors": ["signals.hpp:slot constructors (1254-1301)", "signals.hpp:slot_func (769-778)", "signals.hpp:signal::connect (1689-1720)", "signals.hpp:signal::disconnect (1758-1778)"]}
{"id": "C79", "title": "Which overloads of connect and disconnect are chosen", "statement": "connect(a) and disconnect(a) take a slot, of whatever constness and value category, by the overload on const slot&, and anything else by the template if it passes the template's condition, otherwise by conversion to a slot. Connecting a slot copies it with the copy constructor, also a non-const one (which cannot be copied directly, C78). Connecting a callable makes the slot from the argument with its constness and value category. disconnect compares the slots with a slot made from the argument with its constness and value category whether or not the argument passes the condition, so that connect and disconnect test different types makes no difference.", "quantifier": "For all types of callables, constness, value categories, and outcomes of the condition.", "why_tests_cant": "Each test uses one kind of argument, and which overload was taken is not visible.", "anchors": ["signals.hpp:signal::connect (1689-1707)", "signals.hpp:signal::disconnect (1751-1766)", "signals.hpp:slot constructors (1254-1301)"]}
{"id": "C80", "title": "What becomes of a connection or scoped_connection given to another", "statement": "A connection or scoped_connection that is made of, or assigned, a handle takes the slot from it (leaving it empty) exactly if it is a non-const rvalue. From other handles the slot is shared, but a scoped_connection does not share the slot of another scoped_connection: this does not compile, although scoped_connection has a constructor from its base class. A connection can take the slot from a scoped_connection: connection c = s.connect_scoped(f) compiles, and nothing will disconnect f at the end of a scope. Overload resolution is never ambiguous.", "quantifier": "For both classes of source and target, all constness and value categories, construction and assignment.", "why_tests_cant": "That something does not compile is not tested by running a program; the tests use some of the combinations.", "anchors": ["signals.hpp:connection (1488-1491)", "signals.hpp:scoped_connection (1576-1597)"]}
