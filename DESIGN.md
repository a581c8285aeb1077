# Verification of jpvanoosten/signals: design

The code in /repo is two headers: `signals.hpp` (signal, slot, connection,
scoped_connection, connection_blocker, cow_ptr, traits) and `optional.hpp`
(opt::optional).  It is read as text; nothing in /repo is built or run.

## Models

| model | file | what it covers |
|---|---|---|
| signal machine | `Base.v`, `Machine.v` | signals.hpp 415-438, 511-658 (as used by signal), 677-1045, 1084-1867 |
| void signals | `VoidSig.v` | the signature with R = void: slot and combiner specialisations |
| memory accesses | `Access.v` | which non-atomic objects every step of the machine reads and writes, and on what it synchronises |
| life of slot objects | `Lifetime.v` | when every step makes, uses and destroys slot objects; the reference counts of their shared_ptrs; handing connections to other threads |
| life of tracked objects | `ObjLife.v` | when every step makes, uses and destroys objects that slots track (927-1045); the counts of their shared_ptrs; handing objects to other threads |
| combiners of the examples | `Combiners.v` | slot_iterator (1080-1207) as an object; maximum_value, aggregate_values, max_or_default |
| tests and examples | `RepoTests.v` | /repo/tests and /repo/examples as client programs of the signal machine |
| cow_ptr | `CowModel.v` | signals.hpp 502-671 as a class of its own |
| optional | `OptModel.v` | optional.hpp 110-1203, 1538-1640, `optional<T>` with throwing and non-throwing payloads |
| optional<T&>, optional<void> | `OptRefModel.v` | the two specialisations |
| comparisons | `OptRel.v` | optional.hpp 1205-1536 |
| index sequences | `IntSeq.v` | signals.hpp 1047-1078 |
| types | `TyModel.v` | traits 42-52, 145-413, invoke_helper 440-498 and the constraints of connect and disconnect, as functions on descriptions of types |
| overloads | `OverModel.v` | optional.hpp 250-343, 754-915: the constructors and assignments of optional<T> as overload sets, and overload resolution for one argument |
| overloads of optional<T&> | `OverRefModel.v` | optional.hpp 1057-1091: the constructors, assignments and emplace of optional<T&> as overload sets, deleted ones included |
| overloads of optional<void> | `OverVoidModel.v` | optional.hpp 1145-1167: its constructors, assignments and emplace as overload sets |
| overloads of slot | `OverSlotModel.v` | signals.hpp 1254-1301, 769-778: the constructors of slot for one and two arguments, and how the one for function objects constructs its member |
| overloads of connect | `OverConnModel.v` | signals.hpp 1689-1707, 1751-1766: connect and disconnect with one argument as overload sets, and the slots they make |
| overloads of handles | `OverHandModel.v` | signals.hpp 1488-1491, 1576-1597: the constructors and assignments of connection and scoped_connection as overload sets |

### The signal machine
* A small-step, executable machine (`step`, `run`): a world holds signals, vectors
  of slots, slots, client variables, one stack of frames per thread and a log of
  events.  A step is one shared-memory access by one thread; a schedule is any
  list of (thread, memory) pairs, where memory is `MOk`, `MThrow` (an allocation
  throws) or `MAbort` (it throws inside a noexcept function).  So a statement about
  all schedules covers all interleavings and all allocation failures.
* Client code is a tree of API calls (`prog`), infinitely branching on results,
  exceptions included.  Trees are well founded, so a client that loops for ever is
  covered through its finite prefixes: every reachable state of the looping client is
  reached by some finite tree.  Callables, operator==, the destructors of functors and
  of tracked objects, and combiners are client programs too, so callbacks can re-enter the library.
* Undefined behaviour is an outcome (`SUB kind`), never a default value.  The kinds are
  listed at `ubkind`; theorem C30_causes says where each one can come from.
* The log (newest event first) is the observable behaviour.  Statements about histories are
  about the log, through a small replay specification in `Spec.v` which does not
  use the machine: `spec_list` (list of a signal), `spec_blk`, `spec_flag`, ...
  Statements about one call (`SpecErase.v`, `SpecCall.v`) relate the state at the call and
  the state when its result is delivered, with the events logged in between (`since`).
* `use_count` and object lifetimes are computed from the owners, not stored.

### Proof method
`Trans.v` turns `step` into a relation for case analysis (`lstep_trans`, proved).
Invariants by cases (files `Inv*.v`), then every log statement follows from a
per-event condition established in the step that adds the event (`log_all`, `Hist.v`).
`OpCalls.v`, `OpErase.v`, `OpSlots.v`, `CallRun.v`, `OpOwn.v`, `OpEmit.v`, `OpQuery.v`,
`OpHandle.v`, `OpBound.v`, `OpDeath.v` follow one call from begin to return.
`RaceProof.v`, `RaceStep.v`, `RaceDrop.v` keep an invariant about runs together with their actions: for
every location, which events happen before the next access that may touch it.  `LifeKinds.v`,
`LifeProof.v`, `LifeStep.v` do the same for slot objects: whoever holds a share of a slot knows
that it was made, and every use of a slot is known to a holder, to the count of a vector it
is in, or to its own count; `LifeOnce.v` is about the order in which things happen.  `ObjLifeProof.v` and `ObjLifeOnce.v` do
both for tracked objects.
`AloneProof.v` simulates a thread among others by the same thread alone, `MeanProof.v`
relates the lone thread to the big-step definition, and the `Tidy*.v` files type whole stacks
with what each frame owns.
`Prop*.v` contain only theorem statements closed by `exact`, each followed by
`Print Assumptions`, and examples.  `Witness.v`, `Examples.v`, `OpExamples.v`,
`UseExamples.v`, `CowExamples.v`, `OptExamples.v` have concrete runs (`vm_compute`) that
meet the hypotheses, and the refutations.

Dependencies, lowest first: Base, Machine, Trans, Spec, SpecState, Reach, Inv*, Hist,
LogLemmas, Facts, Emission; SpecErase/InvErase; SpecCall/InvOp/Op*/CallRun;
SpecUse/InvUse/InvFault; SpecOwn, SpecHandle, SpecBound, SpecDeath with their Op* files;
Access/SpecRace/RaceProof/RaceStep; Lifetime/SpecLife/Life*; ObjLife/SpecObjLife/ObjLife*; Combiners/SpecComb/CombProof; RepoTests/TestsProof;
SpecAlone/AloneProof/SpecMean/MeanProof; SpecTidy/Tidy*; SpecEnd/Multi/End*; SpecQuiet/Quiet*; SpecObject/Obj*; Prop*.  The Cow*, IntSeq*, OptRel*, Opt*, OptRef* files are
independent of the machine.

## Per property

| id | modelled | proof |
|---|---|---|
| C01 | ECall carries the log position at which slot::operator() was entered; disconnect logs EFlag/EDisc | invariant on slot frames: connected flag was read after entry |
| C02 | same, one thread | no event lies between entry and call in a one-thread world; refutation by schedule for two threads |
| C03 | exchange on m_Connected | at most one EFlag per slot, one pending removal per EFlag |
| C04 | vector + m_Index + swap/pop | index coherence invariant for slots not erased; refutation by run |
| C05 | EConnd event | flag/lifetime invariants against the log |
| C06 | spec_list | refinement invariant |
| C07 | EEmit event and EDeref events | snapshot frames own their vector; owned vectors never change |
| C08 C09 C12 C33 | combiner as client program | the EDeref events of an emission are a run of the combiner program (`esteps`) |
| C10 C11 | EBlk events | m_Blocked equals last EBlk |
| C13-C17 | erase loop with comparison programs | loop invariant `er_ok` against filter/Permutation, then per call |
| C18-C20 | weak_ptr::lock pins in frames | pins and object-death events |
| C21-C24 | client variables | symbolic execution of the operation from any reachable world + C01 |
| C25 C26 | destroy / move | invariant `I_sig`, runs |
| C27 C29 | lock field and frames | lock weight invariant |
| C28 | FLock frames, client programs of operator== and functor destructors | hold-and-wait is impossible when those take no mutex (`lock_holds_nothing`), so the owner can move |
| C30 | all UB outcomes | case analysis of every `LUB` against the invariants; converse by computation of the step |
| C31 | allocation outcome per step | call framework |
| C32 | tuple in FEmit frame | invariant: tuple = consume of the callables called so far |
| C34-C36 | user slots, slot_eq | call framework, algebra |
| C37 C38 | slot identities | freshness, refinement |
| C39 | m_Blocked of signal | invariant |
| C40 | im_st | only OSelfSet changes it |
| C41 | lifetimes computed from owners, ESlotDead | weight invariants |
| C42 C43 | CowModel | simulation by values |
| C44-C47 C49 C50 | OptModel, OptRefModel | simulation by option, lifetime ledger |
| C48 | OptRel | algebra |
| C51 | IntSeq | induction |
| C52 | the events one thread logs during one call (`SpecOwn.v`) | call framework: the result is a function of those events |
| C53 | client variables against independent value semantics (`SpecHandle.v`) | symbolic execution of every operation from any reachable world |
| C54 | stages SDisp, SPin of a slot call | the stage SPin reads the flag after the pin exists |
| C55 | number of steps between two client steps (`SpecBound.v`) | measure on frames, decreasing in library steps |
| C56 | CowModel with an outcome per allocation | case analysis; std::terminate is a separate outcome |
| C57 | Combiners, `esteps` | the answers of the slots determine the result (`SpecComb.v`) |
| C58 | Access, happens-before (`SpecRace.v`) | invariant over traced runs; refutation by a two-thread run |
| C59 | TyModel against INVOKE as an inductive relation (`TySpec.v`) | case analysis on the kind of object argument |
| C60 | owners of a slot read off lists and stacks (`SpecDeath.v`) | the liveness invariant, case analysis on steps |
| C61 | the same thread run alone, events compared without emission numbers (`SpecAlone.v`) | a step-by-step simulation between the interleaved and the lone run; the list, slots and objects do not change, so only the mutex connects threads |
| C62 | the tests and examples transcribed line by line as client programs (`RepoTests.v`) | evaluation, and a lemma that all schedules of one thread agree; InvokeThreaded by C61, ThreadedCrossed by C63, ThreadedConnect by C64 |
| C63 | a big-step definition of emissions, callables and combiners (`means` in `SpecMean.v`) without threads, stacks, mutexes or snapshots | both directions for a thread alone: by induction on the meaning, and by induction on the number of steps; then C61 |
| C64 | rules of ownership for each piece of client code (`tidy` in `SpecTidy.v`), which mention no thread but its own and no state of the library | an owner (thread and height in its stack) for every variable; the stacks are typed by what each frame may use, and every step keeps that (`trans_stepped` in `TidyAll.v`); C30 then says what can still go wrong |
| C65 | a measure on arguments that goes down with each nested call (`ends_env` in `SpecEnd.v`), endless fair schedules | each frame and each living slot is worth an item (level, rest of the program); every step replaces one item by smaller ones, and the multiset order is well-founded (`Multi.v`); together with C30 (no thread is stuck) fair schedules finish; a callback that emits its own signal shows that the measure is needed |
| C66 | flag and list of a slot compared when no thread is inside its disconnect; `neat`/`frees` programs destroy what they make (`SpecQuiet.v`) | from C02's list history: a slot that leaves the list had its flag cleared or was erased, a cleared flag comes from a disconnect (whose removal then follows) or from a dead object; for scoped clients every live connection is covered by a frame that will destroy it; examples show the exceptions happening; with one thread no object dies between the check and the lock of a call, so there are none (`QuietOne.v`) |
| C67 | number of ECall events of a thread in the part of the log its run added; `working` counts unfinished threads (`SpecCount.v`) | a position for every thread in the loop (`phase`), who owns which slot: every connected slot is owned by one working thread, so an emission's list has at most as many slots as there are working threads, and C09 bounds the calls by the list; the thread's own slot stays connected until its emission returns, so it is called |
| C68 | FDtor frames of objects on top of the step that gave up the last owner; pins of slot calls; EObjDead (`SpecObject.v`) | weights: living objects and death events add up to at most one, destructors in progress to at most the deaths; a slot call reads expiry before it calls (C18) and a dead object stays dead; the mutex part from the lock invariant of C28 |
| C69 | `Lifetime.v` adds actions on slot objects to those of C58; happens-before, `one_life` (`SpecLife.v`) ; every event goes with its actions (`SpecActs.v`) | invariant over runs with all their actions; the step by cases on what happens to shares of slots (`kind`); refutation by a two-thread run that emits and then disconnects |
| C70 | `ObjLife.v` adds actions on tracked objects; happens-before, `one_object_life` (`SpecObjLife.v`); every event about objects goes with its actions (`SpecActs.v`) | invariant on top of C69's: every use is known to a thread inside a call that holds the object, or to its count; that the object was made is known through the slot that tracks it, which C69 gives to everyone who holds the slot |
| C71 | a sequential table of slots with the acts on it (`SpecAtomic.v`), `history` of a log, `call_log` (`SpecOwn.v`) | the table after a history is the specification's reading of the log (`after_log`), which the invariants tie to memory; what each call logs comes from C52; that every act belongs to a call: invariant on stacks (`stands`), above every continuation there are only frames that fit the call |
| C72 | `locks`, `outside`, `section_run` (`SpecWait.v`), `in_call`, `own_step` | a blocked step is at a lock whose owner has a frame of a section on its stack (`lock_iff`); the invariant on stacks of C71 says which call such a frame belongs to; the length of a section: a measure on the top frames that every own step lowers |
| C73 | `lact`, `lsequential`, `lhistory`, `lperforms`, `lpart` (`SpecLists.v`), `call_log`, `since` | the list the history leaves is the one of C06's specification, except that of a signal in which a disconnect(f) is in progress, where it is the list it found; only the owner of the mutex logs about a list. Per call: the phases of C52's method, a new set of phases for disconnect(f) |
| C74 | `walked`, `list_of`, `copied`, `made`, `may_make` (`SpecCopy.v`) | two signals never own one vector, so a use count above one comes from a frame of an emission. Per call: the frames that may still copy, above the continuation of the call, are at most one, and each copy uses one up |
| C75 | `expect_direct`, `expect_implicit`, `expect_assign` (`OverSpec.v`): the effect by the type of the argument, without candidates or ranks | case analysis on the type of the argument; the rank of a conversion to optional<T> is determined by that to T |
| C76 | `expect_ref`, `expect_lvalue`, `expect_assigned` (`OverRefSpec.v`): by type, constness and value category of the argument | case analysis on how the type of the argument is related to T and whether a conversion exists |
| C77 | `compiles` (`OverVoidSpec.v`): overload resolution chooses a function | case analysis on type, constness and value category of the argument |
| C78 | the constructor by constness and value category; `make`, with fuel, says whether construction ends | case analysis; induction on the fuel |
| C79 | the overload, and the constructor with its argument, by the kind of argument | case analysis; C78 for the constructors |
| C80 | `expect_fate` (`OverHandSpec.v`): taken from non-const rvalues, else shared, never between scoped_connections | all cases |

Not expressible here: compile-time behaviour beyond C59 (noexcept specifications as
types, the two members of slot that do not compile when instantiated, lines 1290 and
1304), performance, weak-memory effects (see below).

## Trusted base

* The Coq 8.16.1 kernel (and coqchk), the std++ library, no axioms: each theorem is
  followed by `Print Assumptions`; the table of results is in the section "Axioms".
* That the definitions in `Base.v`, `Machine.v`, `CowModel.v`, `OptModel.v`,
  `OptRel.v`, `IntSeq.v`, `TyModel.v` and the other model files say what the cited lines do.  They were written by hand.
* Modelled at statement level: everything listed in the table above.
* Simplifications (repeated at the definitions):
  - sequential consistency; each access to shared state is atomic.  Data races are
    the subject of C58: m_Slots, the vectors and m_Index never race except that a write to
    a vector may race with the reads of an emission that has ended, because
    `use_count()` (649) does not synchronise.  With an acquiring load there is no race.
    C69 says the same of the slot objects, including their destruction, and C70 of tracked
    objects, where there is no race.
    Functor state is the client's to protect.  Reordering of relaxed accesses is not modelled.
  - all argument and result values are integers; a callable's identity for
    operator== is a number, its type another.
  - connected() as a query through a connection reads expiry and flag in one step;
    `C05_two_loads` shows that with two loads it gives the answer of one of the two moments.
  - a query locks the weak_ptr and reads the flag in one step; its temporary shared_ptr
    is given up in a second one, and may be the last owner of the slot.
  - functor copies other than the one in a connected slot (arguments, the temporary
    of signal::disconnect, client slot variables) have no destructor effects.  Those the
    library destroys itself go when the call has released the mutex and done everything else, so
    a client program that runs the destructor's code right after the call has the same runs.
  - a tracked object is owned by one client shared_ptr and by the slot calls that have locked
    it; its destructor is a client program and runs after the step that gave up the last owner.
  - the argument of signal::disconnect(slot) is read once, at the call.
* In the machine is_equality_comparable is a parameter and invoke_helper (440-500) is
  "call the callable"; `TyModel.v` has them as functions on types, without volatile,
  class types with an operator* of their own, overloaded member functions, conversion functions
  to optional<R> and result types that are references.
* `OverModel.v`, `OverRefModel.v`, `OverVoidModel.v`, `OverSlotModel.v`,
  `OverConnModel.v` and `OverHandModel.v` restate C++'s rules of overload resolution for one or two arguments (ranks, binding of references,
  templates after functions, partial ordering); what it leaves out is listed at its head.  A chosen function may still
  fail to compile in its body: operator= for optional<U> (843, 853) is not constrained.
* Not modelled: in the machine a
  combiner addresses slots by position, and `Combiners.v` has the iterator objects; optional's swap is the generic std::swap (what two-phase lookup
  finds; a compiler that ignores two-phase lookup would find optional's own); the private unused signal::clear; in the machine, copying a slot
  from a non-const lvalue (see C78), slot::operator=(const slot&) and slot(unique_ptr) (do not compile).

## Axioms

Every theorem in `Prop*.v` is followed by `Print Assumptions`; each prints "Closed under
the global context".  coqchk additionally lists seven constants
`Coq.ssr.ssrunder.Under_rel.*` of the standard library, which come in with std++ (a sealed
module type of the `under` tactic); no theorem uses them.

## Testing the statements

`seeded/LOG.jsonl` records deliberate bugs put into scratch copies of the models and the
theorems whose proofs then fail.  The scratch copy also gets the matching change in
`Trans.v`, so that a theorem fails because of its statement and not because of the bridge
lemma; lemmas that no longer hold are set aside there one by one and `Print Assumptions`
tells which theorems needed them.  A theorem whose English claim became false while its
proof survived was tightened.

The entries are grouped by the letter of their id: m and p the machine, a the memory
accesses, q the example combiners, k cow_ptr, o optional, f and u the specialisations of
optional, r its comparisons, i the index sequences, t the type-level code, s lifetimes and queries,
e progress and safety of whole clients, d destructors and scoped clients, g the life of slot and
tracked objects, h happens-before, l waiting, ls the lists of slots, cp
copies of lists, ov, or, ow, os, oc and oh overload resolution.  An edit that no theorem noticed has two
lines: the first attempt with the theorems added because of it, and the repetition.  Found
that way: nothing tied the result of a call to what the call did (C52), nothing said that
handles are values (C53), nothing said that a tracked slot is tested twice (C54), running out
of memory in cow_ptr had no statement (C56), and C48 did not say which operator of T decides
between an optional and a value (C48_with_a_value) and between two optionals
(C48_between_engaged_optionals).

The sequential models (cow_ptr, optional, comparisons, combiners, types, overload resolution) were also mutated
mechanically, one token at a time: constants, conditions, operators, argument order, similar
names, neighbouring cases.  What survived was either equivalent to the original (`i = j` for
`j = i`; a rank or binding of a candidate that is not chosen either way) or in an example, or led to a new theorem.
