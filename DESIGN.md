# Formal model of seL4/camkes-tool in Rocq

## Approach

The tool is a Python code generator (parser pipeline, AST with freezing rules,
template macros and allocation context) plus C runtime and C templates that end
up in every generated component.  Each piece is modelled by a shallow, total,
computable Gallina function that mirrors the source branch by branch; Python
exceptions and C error returns are values.  Loops are structural recursions or
carry fuel whose exhaustion is an explicit error excluded by a theorem.

Layout of `rocq/theories`: for each area `X_Model.v` holds the definitions with
file/line citations, `X_Spec.v` a small independent specification, `X_Proofs.v`
the lemmas and `X_Props.v` only the property theorems, each closed by `exact`
with `Print Assumptions` beneath and a concrete example beside it.

When the English property is false of the faithful model the theorem is called
`..._refuted` and gives a witness; a guarded version carries `_partial`.

## Trusted base

* Coq 8.16.1 kernel, including its VM (`vm_compute` in examples and in refutation witnesses).
* `Print Assumptions` answers "Closed under the global context" for every theorem of every
  `*_Props.v` file.  No axiom of ours, none of the standard library, none of another library.
  (`coqchk -o` lists the parameters of the module type `Coq.ssr.ssrunder.Under_rel`, which the
  ssreflect tactic library declares; no theorem depends on them.)
* The reading of the source expressed by the `*_Model.v` files, each definition with the file and
  lines it models; and the specifications in `*_Spec.v`.
* Where a model needs something outside the repository (the seL4 kernel, libsel4sync, libvirtqueue,
  capdl, pyfdt, plyplus, the C and Python libraries), the assumption is stated at the definition.

## Per-property plan

* **C01 Import inclusion: each reachable file exactly once, in declare-before-use order.** File system as a finite association list file -> items (import target | statement), import paths already resolved to file names. The work-deque loop of stage 2 with fuel; out-of-fuel excluded by a theorem. Compared with reachability, counting and order specifications.
* **C02 Flattened component instances have unique names.** Component types as a finite tree (instances, connections, exports, settings); infer_all as structural recursion; names as dot-joined strings. Uniqueness by induction with injectivity of dot-joining.
* **C03 Flattening preserves address-space separation and sharing.** Same model, address_space field; iff theorem against a path-based specification.
* **C04 Flattening keeps every instance, connection and setting exactly once.** Same model; permutation with the path enumeration given by an independent specification.
* **C05 Connections reach the interface behind an export chain.** Same model with alias table; termination by the nesting depth of alias targets; end correctness against an inductive 'export leads to' relation.
* **C06 Attribute references resolve to the value at the end of the chain, loops are rejected.** Settings as a mutable list; sub_resolve with the depth list; fuel bounded by number of settings, shown sufficient; chain relation as specification.
* **C07 Attribute reference with dictionary lookup reads the looked-up entry.** Same model; expected to be false through chains: refutation plus guarded theorem.
* **C08 Connection merging loses no connectivity and leaves no shared interface.** Connections with end sets; candidate dictionary in insertion order; consolidate fold; spec via reflexive-transitive sharing. Expected to be false for bridging patterns: refutation plus guarded theorem.
* **C09 Composition of several assembly blocks loses nothing.** List model of compose_assemblies.
* **C10 Group collapse: one address space per group.** List model of Collapser; counter for unnamed groups; refutation for user names equal to generated ones, guarded theorem.
* **C11 Name lookup finds the innermost visible declaration.** Stack of association lists, operations as in scope.py; invariants over operation lists.
* **C12 An accepted assembly has every interface connected at most once and every mandatory interface connected.** Composition.freeze as a checker over instances, interfaces, connections; soundness and completeness.
* **C13 An accepted connection is well typed.** Connection.freeze as a checker; soundness (and completeness) against a declarative predicate.
* **C14 Effective configuration: explicit setting wins, defaults fill in, duplicates rejected.** Configuration.freeze building the mapping.
* **C15 A frozen specification object cannot change.** Object as field map + frozen flag; operation histories.
* **C16 Equal AST objects hash equally and equality is an equivalence.** Rose tree of fields; comparison and hash functions parametric in the string/int hash.
* **C17 Source locations point at the original file and line.** Line list with optional markers; loop modelled as in location.py.
* **C18 Device-tree cells: packing and unpacking are inverse.** Lists of N cells; base 2^32 digit arithmetic.
* **C19 Device-tree register translation follows the bus ranges.** Range tables; translation loop.
* **C20 Untyped cover of a physical range.** Fuelled loop over N; partition theorem.
* **C21 Page rounding helpers.** Arithmetic in N.
* **C22 Global endpoint notification badges are distinct one-bit values within the mask.** Fuelled set_next_badge over N bit operations; allocation trace over ends.
* **C23 Global RPC endpoint badges are distinct and within the mask.** Same style.
* **C24 RPC connector badges: automatic assignment never clashes.** List model of the two template loops.
* **C25 Virtqueue client ids never clash.** List model of the loop.
* **C26 Integrity group labels are canonical.** Association-list model of the label dictionary; canonicalisation with seen list.
* **C27 Thread list of an instance: control first, distinct names, one per declared interface thread.** List model of threads(); strings.
* **C28 Template store: guarded values are created once and shared.** Nested association lists; histories.
* **C29 Object/capability allocation is idempotent and rights only accumulate.** Object and cap spaces as association lists with rights sets.
* **C30 Generated symbols never repeat.** Counter and string concatenation; decimal printing injective.
* **C31 RPC marshalling round trip.** Byte lists; marshal/unmarshal per parameter kind with explicit buffer size; round trip by induction.
* **C32 RPC unmarshalling never reads outside the received message.** Same model with explicit read bounds and machine arithmetic modulo 2^w; refutation for length overflow, guarded theorem.
* **C33 RPC method dispatch reaches the method called.** Index width arithmetic.
* **C34 Event connector: a registered callback and a pending event never coexist, events are not lost.** Small-step interleaving semantics with unbounded thread pool; inductive invariants.
* **C35 Capability allocator never hands out a cap twice.** Linked list of descriptors as list; histories.
* **C36 DMA allocator: returned regions are disjoint, aligned and inside the pool.** Free list of regions; try_alloc loop with fuel; invariant over histories.
* **C37 DMA defragmentation preserves free memory.** Pointer-level model (memory: address -> node) of defrag.
* **C38 DMA allocation honours the requested cacheability.** Stale cached flag modelled by the memory contents; refutation expected.
* **C39 Virtqueue buffer allocator.** Free-list model of virtqueue.c.
* **C40 Interface registry: duplicate registrations rejected, others accepted and found.** List of lists; refutation expected (inverted test).
* **C41 Interrupt registration.** Table model of irq.c.
* **C42 Reply capability protection state machine.** State machine with kernel reply slot.
* **C43 Merging of dictionary keys by device-tree queries.** Key normalisation; refutation expected, guarded theorem.
* **C44 Numeric constant expressions.** Expression fold.
* **C45 Reference resolution leaves no unresolved or wrong reference.** Simplified declaration list with references and scoping.
* **C46 Address-space to capability-space mapping.** List/dict model.
* **C47 Output file, item and template lists line up.** Guard condition; refutation expected.
* **C48 Isabelle identifiers do not clash.** String map injectivity.
* **C49 Type checking of configuration values.** Recursive checker over types and values.
* **C50 Interrupt lists from device-tree nodes.** List chunking; refutation for extended ARM lists.
* **C51 Assigning None or another value through an attribute reference.** Same model as C06; refutation, and a theorem that every such configuration is rejected.
* **C52 Schedules of several assemblies.** Same model as C09; refutation (only the first survives).
* **C53 DMA requests fail only when no region is large enough.** Same model as C36; refuted for aligned requests, proved for unaligned ones.
* **C54 RPC client stubs release the receive buffer lock.** Control-flow model of the stub; refuted on error paths, proved on success.
* **C55 A rejected object stays rejected.** Freezing twice; refuted for connections and procedures.
* **C56 Duplicate names in procedures, methods, components.** Exact characterisation of the checks; refuted for structs and hardware semaphores.
* **C57 Device-tree queries select exactly the matching nodes.** Query engine over a node tree, regular expressions as parameters.
* **C58 Aliases.** Same model.
* **C59 Device registers are mapped whole.** Arithmetic of the mapping loop.
* **C60 Method index type is wide enough.** Arithmetic.
* **C61 Component start-up protocol.** Interleaving semantics with any number of interface threads; invariants; progress partly.
* **C62 Pointers into dataports survive wrapping and unwrapping.** Word arithmetic of the three templates.
* **C63 Cache maintenance covers exactly the range asked for.** Loop over frames against the set of bytes.
* **C64 Physical address translation.** Search over frames.
* **C65 Lifting keeps every declaration.** Parse trees and AST as inductive types, lifters as structural recursion; specification as an independent reading of the tree.
* **C66 Lifting rejects exactly the meaningless declarations.** Same model; iff theorem.
* **C67 Debugger packets are recognised exactly.** Receiver as a state machine over character streams; invariant relating the buffer to the stream.
* **C68 Debugger checksums.** Same model; refuted for non-hexadecimal digits and zero bytes.
* **C69 One reply per debugger command.** All command handlers over an abstract machine (memory, registers, breakpoints); outcome lemma for every command text.
* **C70 Debugger memory commands.** Same model, memory as a partial function; refutations for lengths, high addresses, crashes.
* **C71 Debugger register commands.** Same model; byte-order arithmetic.
* **C72 Breakpoints.** Same model; table and kernel slots mirrored over command sequences.
* **C73 Stop reports.** Fault messages as data, the fault loop as a function.
* **C74 Step and continue.** Sessions of stops, commands and resumptions; kernel reply semantics from the seL4 sources, stated in the model.
* **C75 Mapping device memory.** The loop over frames as a function on words; soundness by an invariant, completeness by induction on the run.
* **C76 Unmapping.** The list of pointers as a multiset; every history.
* **C77 Driver initialisation.** Modules are functions of an arbitrary state; rounds by recursion with fuel, termination proved for dependencies without cycle.
* **C78 Virtqueue transfers.** Shared memory as a function, rings as queues of chains; refinement to two queues of byte strings by an invariant over all histories.
* **C79 Message queues.** The same model; refinement to one queue of messages, without hypotheses on the history.
* **C80 Locking and querying memory.** Regions as a list, the walk over them with fuel that is shown to suffice; soundness and completeness by induction.
* **C81 select.** Descriptor sets and the table as functions, the server as an arbitrary function on the shared sets; the loops by induction on the descriptor.
* **C82 Fault pictures.** The repeated search as recursion on the number of regions; the picture is an inductive relation, shown by induction on the regions left.
* **C83 Virtqueue channels.** Tables as functions of the id; every sequence of registrations, invariant that each entry is the last valid registration.
* **C84 Message queue channels.** The same with the first valid registration.
* **C85 Stacks, buffers and frames.** Mappings as functions from offsets to frame bytes, as registered; arithmetic on offsets for all sizes.
* **C86 Access rights.** The regular expression as a recogniser; induction on the string.
* **C87 Scheduling properties.** Settings as a function from attribute names; injectivity of the attribute names gives non-interference.
* **C88 Attribute values.** The printer as recursion on the type; a small reader of C initialisers (lines, tokens, grammar) and a relation between settings and C values; induction on the value.
* **C89 Struct definitions.** The recursion that collects structs, and the loop that prints them; well-formedness is an inductive predicate on the sequence, shown by induction on types.
* **C90 Error messages.** The message as a list of lines, built as the code does from the place and the lines of the file; a relation says which columns of a line carry marks. Lemmas on lengths of strings.
* **C91 Dependency rules.** The reader line by line; a small grammar of make rules (names with their escapes, blanks, continued lines) is the specification; induction on the list of names.
* **C92 Checker for templates.** The two loops over markers and directives; a grammar of templates is the specification, and a weaker relation of nested sequences says exactly what is accepted; strong induction on the sequence.
* **C93-C95 The whole parser.** Stages 5 and 6 on specifications whose components are shared, joined to the models of stages 7, 8, 9 and of the freezing of configurations. The specification speaks of the text as written: paths through compositions (`place`), groups, exports (`stands_for`), chains of references (`has_value`). Proof: the hierarchy stage 7 gets represents the specification (induction on paths); then the theorems on the stages are put together; names with dots are injective on identifiers.
* **C96 Correct specifications are accepted by the whole parser.** The stages of C93-C95; each stage's acceptance theorem (flattening total on resolved hierarchies, references complete, merging with one shared end, freezing without duplicates) with the invariant that names of compositions are prefix-free, so that merged connections get fresh names.
* **C97 Emitting an event to several receiving ends.** The loops of the generated emit functions and the counter of sync_sem_bare as a transition system with a log of what happened; the theorems relate the log to the state in every reachable state; induction on the execution.
* **C98, C99 The IOAPIC interrupt connector.** The delivery thread and any number of user threads as a transition system, one step for each access to shared memory, with a log; the kernel masks the interrupt until it is acknowledged. Invariants on slots, sleepers and the log by induction on executions; races are shown as reachable states, and what holds without them is proved of the executions that avoid them.
* **C100 Settings of hardware interrupts.** The template's cascade of tests as a function to an object and a record or to a message; a relation says which settings describe which interrupt. Proof by cases, both directions; the record is joined with the model of C41.
* **C101 Mutexes of drivers.** sync.c on the allocator of C35 as the component fills it; invariant: notes are marked used exactly if a mutex in existence has them; counting gives the exact condition for success.
* **C102, C103 The simple interface.** The allocations of component.simple.c with the guarded allocator, which records the object behind each capability, and its functions; the switch is a list of labels with ranges. A specification lists the objects of the settings in order. Proof: the allocator keeps its invariants, each list of capabilities corresponds to its objects, and the labels cover the list in order without overlap.
* **C104 Forward references.** The AST as a heap, since references are replaced in place; the preorder traversal with its scopes, the second pass over the ends of connections, the check for cycles and the last check. Proof: the traversal is a sequence of justified assignments (each to a slot holding a reference, by the first meaning of the reference at that time), which changes slots only within the subtree it visits; the scopes always are those of the original tree. Qualified references: proved to be a meaning, not the nearest.
* **C105 Access to IO ports.** The generated functions of each width, the offset check, the table of the component's IO port regions and the search in it, the system call with its capability, the error handler; the device is any state machine. Proof by cases over the search; disjoint ranges make the first hit the right one.
* **C106 Sockets.** The system calls on sockets over any server (a state machine that gets a request, the shared page and its state), with the table of descriptors; memcpy beyond an object is a fault. Proof: one request per call with the right bytes in the page; induction over the loops of a program that writes or reads all; an invariant over sequences of calls for the relation of descriptors and server sockets.
* **C107 Traversals of ASTs.** ASTs are trees of objects with slots; actions are functions with a state that keep, replace or raise; contexts are functions on the state. Positions are lists of slot numbers. Proof: induction on trees with a list of all positions in the order of visits, with notes of every call for contexts and exceptions, and slot by slot for replacement.
* **C108 Functions for CakeML programs.** Arrays of bytes with bounds (outside is None), any file system, any kernel, the virtqueues of Vq. Proof: byte layouts through loads and stores of numbers; for virtqueues a refinement with the invariant that blocks on their way are distinct and intact.
* **C109 A specification has one reading.** Every rule of camkes.g as a relation between a part of the source language, the tokens before and the tokens left. Proof: each rule determines what is read and what is left, given the tokens that can follow; by induction over items, types and bodies. The lexer and plyplus are not modelled.
* **C110 A component's table of its memory is true.** The table of memory regions of a component as a function of the linker symbols and of the threads. Proof: every byte of a stack or IPC buffer is looked up and compared with the mapping that C85 proves for it; then mlock and mincore (C80) on this table.
* **C111 Threads know who they are.** The set-up of thread-local storage, names, fault badges and the memory map shown on a fault as functions of the threads (C27) and their capability slots (C29). Proof: by position in the list of threads; the picture is that of C82.
* **C112 The names of the machine and the time are those that were set.** The arrays behind the names as lists of bytes, strncpy and snprintf on them, and sequences of calls. Proof: induction over the sequence, with the invariant that both arrays contain a NUL. The clock is arithmetic.
* **C113 System calls reach their implementations.** The table with its preprocessor conditions and the installation as updates of a dictionary. Proof: every entry for a number is for one name, hence the last one installed is the right one.
* **C114 Only the ends of a connection get authority over it.** Each template as the sequence of alloc, alloc_obj and alloc_cap calls it makes on the context of C29, over any list of ends and of component-owned objects. Proof: the final state is that of a history of requests, every capability stems from one, and object names are told apart by their last segments.
* **C115 The generated integrity theory labels what exists.** The lists that the templates print, as functions of the group labels of C26 and of the allocated objects with their labels. Proof: the lists are permutations of the allocations mapped by the group; names are told apart after dots became primes; with C26 for the groups.
* **C116 The generated architecture theory says what the assembly is.** The theory as a list of definitions that refer to each other by name, computed from the assembly by the branches of the template. Proof: the references of every part are names of an earlier part, because the types are collected from the same instances; names of one kind are injective and of two kinds different (C48); reading the definitions back by lookup gives the assembly.
* **C117 The build generates the code of every connection end once, for the right instance.** The lists of outputs, items and templates as the loops of the template make them; the options of objcopy with the set instancelist threaded through the loops; objcopy and the link of a group on tables of symbols. Proof: the files of an item by filtering the list, with injectivity of the items; the names of files by splitting at slashes and underscores; the options by induction over the loops, with the invariant that the set holds the keys of the ends seen so far.
* **C118 Instances of an address space are linked into one binary, in which direct calls reach the other end.** The groups as the template makes them; the objcopy options with the set instancelist threaded through the loops; objcopy and the link of a group as functions on tables of symbols. Proof: by induction over the loops, with the invariant that the set holds the keys of the ends seen so far.
* **C119 A server frees what a request made it allocate, once.** The unmarshalling functions of Marshal with the heap made explicit: blocks at natural numbers, freed blocks are gone, a free or a read through a pointer that is not to a block in use is undefined (None). Allocations fail as an arbitrary oracle says. Proof: by induction over the strings of an array, the parameters, and the parameters to clean up, with the invariant that the variables unmarshalled so far refer to distinct fresh blocks and the rest of the memory is framed; the same induction relates results to those of Marshal.
* **C120 A caller owns what a call returned, and nothing is leaked by a failed one.** As for C119, with the old values of inout variables freed before each parameter; what is given up is the list of the old blocks of the parameters reached.
* **C121 The C functions of a method have the types the interface promises, everywhere.** The generated declarations as lists of tokens, following the branches of the templates. A small separate grammar of C declarations and arguments in the specification says what the tokens mean; the C type of every kind of parameter is stated once, independently. Proof: splitting at commas commutes with the loops (induction over the parameters), and case analysis over direction, array, string or other type for one parameter.
* **C122 Every parameter of a call reaches its place, with its type.** A typing judgement for the expressions used (variables, addresses, dereferences) and for assignment. Proof: by induction over the parameters the variables declared by the stub and by the server are a list given by the parameters; each call is parsed and its arguments found there. Distinctness of names from cancelling suffixes.
* **C123 Errors reach the handler that is responsible, and its answer is obeyed.** Handler pointers as values that may be NULL; handlers of the component as an arbitrary function that may answer, not return, and register further handlers. Programs of registrations, uses of ERR_IF, and nested uses that put the old handler back. A run gives the list of what happened; the specification reads the responsible handler off the events before an error. Proof: an invariant that the pointers agree with the history, and an inductive description of correct histories; induction over nested programs.
* **C124 A client gets the response to its own request.** The loop as a function from requests to replies that keeps the buffer and the length between turns, with arbitrary methods and arbitrary answers of the error handler. Proof: by induction over the requests. Braces of the generated text as a list; the depth after each part by induction over types and badges.
* **C125 A C client and a CakeML server understand each other.** Word8Arrays as lists of bytes with checked access; the loops of Utils as recursive functions; the array shared by messages of all clients, with what earlier messages left in it. The client is the C stub modelled for C31. Proof: by induction over parameters the server reads back the wire format of C31, and writes results in it; rounding to words as in C31.
* **C126 File functions of CakeML components report what happened.** The foreign functions as functions from the result of the system call and the argument array to the array. Proof: by computation over an array split into its fields, and the value of big-endian bytes.
* **C127 Everything printed on the serial line of the debugger is transmitted.** A 16550 as a record of registers with a queue of characters; between two accesses it transmits as many as an arbitrary function says. Driver functions pass driver state and device along. Proof: registers by computation for any initial contents; output by the invariant that the queue is not longer than the driver believes, which is at most the capacity; termination by induction over the queue and the time until the next transmission.
* **C128 A GPIO query stands for the pins asked for and those of the platform; files of queries used are dependencies.** Command line, objects of queries, the loop over settings and the set of files read, for any contents of files. Proof: induction over the command line (the value of an option is the last one given, whatever the other option) and over settings, with the set of objects used as accumulator.
* **C129 Testing an address for the debugger ends with the right answer.** The two assembly fragments as lists of instructions with the lengths of their encodings, a machine of six registers and byte-addressed memory, and the fault handler; steps of both in turn. Proof: symbolic execution for any address of the code, any registers and any memory; waiting for ever by a fixed point of the step function. C129_delegate shows that the tests of area Gdb are what the instructions compute.

## What is modelled

| Area (files `X_*.v`) | Properties | Source |
|---|---|---|
| Imports | C01 | camkes/parser/stage2.py |
| Flatten | C02-C05 | camkes/parser/stage7.py |
| AttrRef | C06, C07, C51 | camkes/parser/stage8.py |
| Merge | C08 | camkes/parser/stage9.py |
| Assemble | C09, C10, C52 | camkes/parser/stage5.py, stage6.py |
| Scope | C11, C45 | camkes/parser/scope.py, stage4.py (without forward references) |
| Freeze | C12-C14, C49, C55, C56 | freeze methods and type checks of camkes/ast/objects.py |
| AstObj | C15, C16 | camkes/ast/base.py, camkes/internal/hash.py, camkes/ast/liftedast.py |
| Location | C17 | camkes/ast/location.py |
| Lift, Numeric | C65, C66, C44 | camkes/parser/stage3.py, grammar of camkes/parser/camkes.g |
| Fdt, DtQuery | C18, C19, C43, C57, C58 | camkes/parser/fdtQueryEngine.py, query.py |
| Pages | C20, C21, C60 | page, frame, untyped and integer helpers of camkes/templates/macros.py |
| Badges | C22-C25 | badge and id allocators of macros.py, rpc-connector.c |
| Labels, Threads, Isabelle | C26, C27, C48 | macros.py |
| Dtb | C50, C59 | macros.py, dtb-query-common and seL4DTBHardware templates |
| Context | C28-C30 | camkes/runner/Context.py (store, guarded allocation, symbols) |
| Runner | C46, C47 | camkes/runner/__main__.py (spaces, output selection) |
| Marshal | C31-C33, C54 | marshal_macros.h, helpers/marshal.c, rpc-connector*.c |
| Event | C34 | seL4Notification-to, seL4NotificationQueue-to templates |
| Reply | C42 | libsel4camkes/src/tls.c, rpc-connector.c |
| CapAlloc | C35 | libsel4camkes/src/allocator.c |
| Dma | C36-C38, C53 | libsel4camkes/src/dma.c |
| VqAlloc | C39 | libsel4camkes/src/virtqueue_common.c, virtqueue.c |
| Registry | C40 | libsel4camkes/src/interface_registration.c |
| Irq | C41 | libsel4camkes/src/irq.c and the interrupt templates' loops |
| Startup | C61 | component.common.c, component.environment.c |
| Dataport | C62-C64 | dataport wrap/unwrap, arch/arm/dataport.c, frame lookup |
| Gdb, GdbStop | C67-C74 | sel4_arch/ia32/gdb_server/*.c, component.debug.c, seL4GDB-to template |
| Io | C75-C77 | src/io.c (mapping, tracking of pointers, driver modules) |
| Vq | C78, C79 | src/virtqueue.c (transfers), src/msgqueue.c; the rings of libvirtqueue are modelled from its documented interface |
| Posix | C80, C81 | src/sys_madvise.c, src/sys_select.c |
| FaultMap | C82 | src/fault.c |
| Chan | C83, C84 | src/virtqueue_template.c, src/msgqueue_template.c, lookups of src/virtqueue.c |
| Layout | C85, C86 | stack, IPC buffer, filled frame and access right helpers of macros.py, camkes/runner/Context.py, component.common.c |
| Sched | C87 | tcb and scheduling context properties of macros.py, component.common.c |
| AttrC | C88, C89 | attribute values and struct definitions of macros.py, component.common.c, component.template.h |
| ErrMsg | C90 | messages of exceptions: internal/exception.py, parser/exception.py, ast/exception.py, templates/exception.py, internal/terminal.py |
| MkDeps | C91 | rules for make read and written: parser/stage0.py, parser/__main__.py, runner/__main__.py |
| Lint | C92 | the checks of tools/jinja_lint.py on markers and directives; the scanners that find them in the text are not modelled |
| Whole | C93-C96 | parser.py (the order of stages 5 to 10), stage5.py, stage6.py; stages 7 to 9 and Configuration.freeze as in Flatten, AttrRef, Merge and Freeze; queries and the other checks of stage 10 are not part of this composition |
| Emit | C97 | seL4NotificationQueue-from.template.c, seL4NotificationQueue-to.template.c, seL4Notification-from.template.c (emit and delivery loops); kernel notifications and sync_sem_bare_post/wait reduced to their counters |
| Ioapic | C98, C99 | camkes/templates/seL4IOAPICHardwareInterrupt.template.c |
| IrqConf | C100 | camkes/templates/seL4HardwareInterrupt.template.c (settings, object and record) |
| Mutex | C101 | libsel4camkes/src/sync.c, camkes/templates/component.common.c:358-425 (pools) |
| Simple | C102, C103 | camkes/templates/component.simple.c (without scheduling contexts, ASIDs, init capabilities and printing) |
| Forward | C104 | camkes/parser/stage4.py (allow_forward), camkes/parser/scope.py (ForwardScopingContext, within), preorder of camkes/ast/base.py |
| IoPort | C105 | camkes/templates/seL4HardwareIOPort.template.c, libsel4camkes/src/arch/x86/io.c |
| Socket | C106 | libsel4camkes/src/sys_io.c, libsel4camkes/src/sys_socket.c |
| Traverse | C107 | camkes/ast/base.py (preorder, postorder, freeze), camkes/ast/traversal.py |
| CakeFfi | C108 | libcamkescakeml/src/io.c, libcamkescakeml/src/ipc.c, libcamkescakeml/src/virtqueue.c (send, receive) |
| Syntax | C109 | camkes/parser/camkes.g (all rules; numeric expressions are in Numeric) |
| Ident | C110, C111 | camkes/templates/component.common.c (429-690, 925-1089: table of memory regions, fault handling, thread names, TLS set-up), libsel4camkes src/sys_exit.c (gettid, getpid, getppid), include/camkes/vma.h |
| Sys | C112, C113 | libsel4camkes/src/vsyscall.c, sys_uname.c, sys_clock.c, sys_yield.c, sys_io.c (camkes_install_io_syscalls) |
| Grant | C114 | camkes/templates/rpc-connector.c (establish_from_rpc, establish_recv_rpc, _establish_buffer), seL4RPCCall-from, seL4Notification, seL4NotificationQueue, seL4NotificationNative and seL4NotificationBind templates (their allocations), on Context_Model |
| Refine | C115 | camkes/templates/cdl-refine.thy (group lookups, policy_extra, object labels, ASID and IRQ labels, claims about components), arch-definitions.thy:309-314 and 428, Context.py:617-621, __main__.py:256-268 |
| Arch | C116 | camkes/templates/arch-definitions.thy (definitions; of the lemmas only what they claim about connections, control and the names in the last one), uniq of Context.py, interface_is_exported of objects.py |
| Build | C117, C118 | camkes/templates/camkes-gen.cmake:40-99, 179-322 (generated files), 378-389 (relocatable binaries), 397-518 (symbols and groups); not the flags, libraries, targets, dependencies, capDL steps and theories. Of objcopy and the linker only renaming, visibility and the search for definitions are modelled |
| RpcMem | C119, C120 | libsel4camkes/include/camkes/marshal_macros.h:120-191 (allocations and clean-up actions), camkes/templates/helpers/marshal.c:190-283, 323-386, camkes/templates/rpc-connector-common-to.c:118-210, camkes/templates/rpc-connector-common-from.c:47-99; not: locks, the transport, error handlers other than CEA_DISCARD, loop counters being int |
| Sig | C121, C122 | camkes/templates/component.template.h:52-110, camkes/templates/helpers/marshal.c:7-502 (parameter lists, local pointers, arguments of the macros, calls), camkes/templates/macros.py:148-160, camkes/templates/rpc-connector-common-from.c:41-100, camkes/templates/rpc-connector-common-to.c:49-65, 118-181; not: white space, attributes of declarations, structs as types, casts inside the macros |
| ErrH | C123, C124 | libsel4camkes/src/error.c, libsel4camkes/include/camkes/error.h:20-283, camkes/templates/helpers/error.c:11-38, camkes/templates/rpc-connector-common-to.c:70-263 (badges, method index, errors, length, braces); not: details of errors (unions), printed texts, GUARD of libutils, reading the method index |
| Cake | C125, C126 | camkes/templates/seL4RPCCall-to.template.cakeml, camkes/templates/component.environment.start.cakeml:21-95, camkes/templates/rpc-connector.c:87-102, libcamkescakeml/src/ipc.c:39-91, libcamkescakeml/src/io.c; not: reply capabilities, names of methods, the CakeML compiler and its basis library, the conversion of descriptors to int |
| Uart | C127 | libsel4camkes/src/sel4_arch/ia32/gdb_server/serial.c:100-101, 133-297, 340-359, 386-390; not: received characters (area Gdb), locks; the UART is modelled after its data sheet |
| Gpio | C128 | camkes/parser/gpioQueryEngine.py:20-59; camkes/parser/query.py:56-83, 103-145 (with the files read); camkes/parser/fdtQueryEngine.py:620-642; camkes/parser/__main__.py:100-102; not: abbreviated options and option errors of argparse, the contents of a device tree (areas DtQuery, Fdt) |
| GdbMem | C129 | camkes/templates/component.debug.c:20-55 (instructions), camkes/templates/seL4GDBMem-to.template.c:25-51; not: other threads, faults outside the two tests |

Each model file begins with its simplifications; each definition cites the lines.

## What is not modelled

* The plyplus parser generator, the C preprocessor, Jinja rendering itself, the capdl library and
  its allocation of virtual addresses, the file system (except as a function from names to text).
* Generation of the Isabelle theories, the CakeML templates, graph.dot, the CMake helpers, the
  command line parsers, tools/.
* The musl system call layer of libsel4camkes except madvise, mincore, mlock and select, error.c, the RISC-V and x86
  variants of dataport.c, the serial driver registers.
* Timing, liveness under fairness (except the progress theorems of C34 and C61), memory exhaustion
  of the host tool, C undefined behaviour other than the cases named in a model.
* Python's floating point numbers in specifications (C44), non Latin-1 text (C17).

## Findings

Statements of the properties that are false of the code, each proved as a `_refuted` theorem:

* C01 a relative root file imported again under its absolute name is read twice.
* C07, C51 a dictionary lookup is dropped when the reference it is applied to is itself a reference, and the result depends on the order of settings.
* C08 two connections bridged by a third one crash the merge (ValueError).
* C10 a group called `unamed_group_0` shares the space of the first unnamed group.
* C15 lists inside frozen groups stay mutable; plain attributes can be assigned after freezing.
* C16 comparing objects with different dict values raises TypeError.
* C18 zero cell counts make the reader loop forever; a short last tuple is padded.
* C19 a region that begins below a bus range and reaches into it is passed on untranslated.
* C21 an explicit frame size that does not divide the region leaves the rest uncovered.
* C22, C23 base badges overlapping the mask give equal badges; a mask wider than the badge does not fit.
* C26 grouped and labelled instances; a connection named like a group is reported as a cycle.
* C28 a guarded function that returns None is called again.  C29 object names `a_b`+`c` and `a`+`b_c` are the same.  C30 Isabelle symbols of tags ending in a digit collide.
* C32 array sizes wrap in size_t: zero bytes are allocated for a huge count.
* C36, C38, C53 sizes near SIZE_MAX wrap; a stale cached flag gives uncached memory to a cached request and the other way round; aligned requests fail although a region would do.
* C39 the usable length wraps; a double free is accepted.
* C40 the duplicate test of the registry is inverted; property arrays are read out of bounds.
* C42 a dropped malformed message stops the server or sends the next reply to an earlier caller.
* C43, C57, C58 keys that differ in `-` and `_` are merged; a path query without match searches the whole tree; aliases match by substring.
* C44 `2 && 3` is 3; C47 the chained `!=` accepts lists of lengths 2, 2, 1 and drops outputs.
* C46, C48 names differing in `.` and `_`, and types called like `Buf_4096`, clash.
* C49, C55, C56 unchecked defaults and ranges; a rejected connection is accepted the second time; duplicate struct fields.
* C50, C59 several extended interrupts on ARM are read with the wrong stride; registers that do not start on a page are not mapped whole.
* C52 schedules of later assemblies are lost.  C54 error paths keep the receive lock.
* C61 a passive instance whose name needs sanitising deadlocks.
* C62 pointers below a hardware dataport are accepted on 64-bit machines; offsets are not checked on unwrap.  C63 the last byte of each range is not maintained.  C64 paddr + size wraps.
* C65, C66 a composition or configuration given by name is dropped.
* C67-C74 the debugger: packets of 512 characters, non-hexadecimal checksums, zero bytes, unsupported commands without reply, vCont, decimal lengths, high addresses, crashes on missing arguments, registers beyond the tenth, G without effect, breakpoints per thread, user exceptions overrunning the message array, continuing from a breakpoint while stepping.
* C75, C77 io.c: memory of two dataports joined because it is adjacent physically only, a range missed because an earlier dataport has its first page, drivers waiting for each other, the deferred list freed but not emptied.
* C78 virtqueue.c: a message that does not fit is refused but its beginning is delivered; a block is lost when descriptors run out; an empty message is accepted and never arrives.
* C80 sys_madvise.c: a range that ends with the last mapped byte is rejected.  C81 sys_select.c: a socket whose number is that of another descriptor is mixed up with it; a NULL set sends the previous contents.
* C82 fault.c: a region up to the last address is shown without its end; overlapping regions show a gap; an unknown capability fault shows the message label in place of the cause.
* C83, C84 channel tables: a name lookup runs into a NULL name at the first unregistered id and never reaches the greatest id; negative ids leave the array; a virtqueue id can be registered twice.
* C85 stacks: a stack size that is not a multiple of the page size is documented to be rounded up (docs/index.md:2139-2142); the frames are rounded down, so that the initial stack pointer lies in the upper guard page and the last page of the symbol is ordinary memory.
* C86 access rights: letters in another order ("WR") are refused; the empty string gives all rights; a trailing newline is accepted.
* C87 scheduling: the priority of an interface named `max`, or `i_max`, is the maximum priority of the instance, or of the interface `i`.
* C88 attribute values: strings are not escaped (a backslash changes the value, a newline is not C); an array attribute that is not set stops the generation of the header with a TypeError.
* C89 struct definitions: array lengths are those of the first value of a struct only (0 if that attribute is not set), so other values may not fit; arrays of structs that contain structs, and unset attributes of such structs, stop the generation.
* C90 error messages: when the line is the last one of a file that does not end with a newline, the marks are put behind the line, not below it.
* C91 dependency rules: names with a blank, `$` or `#`, which the preprocessor escapes, are misread; so is a target whose path has a colon (a temporary directory with a colon in its name); names with a blank are written for make without escapes and become two.
* C92 checker for templates: a second `else`, `elif` behind `else`, `break` in a macro inside a loop, and a start marker without end as the last marker are accepted.
* C95 whole parser: a reference with lookups is resolved as written only when the attribute it names is set to a dictionary; a lookup into an attribute that is itself a reference is not resolved (`C95_chained_lookup_refuted`, as C07).
* C97 emitting: when the counter of one receiving end is full, the emit returns before it has tried the later ends, which get nothing. The templates seL4NotificationQueue-from.template.c (line 18) and seL4IOAPICHardwareInterrupt.template.c (line 35) pass the name `interface`, which is not defined there, to make_error_handler, so that they cannot be rendered as they stand; the model takes the rest of the text as meant.
* C16 order of objects: it is not transitive across types that compare equal (`True` equals 1 but sorts by type name against 0); what is proved is that exactly one of less, equal, greater holds.
* C98 IOAPIC interrupts: a callback is published before its argument is stored, so it can be called with no argument or with that of a later registration of the same slot; when the acknowledgement fails, -1 is returned but the callback stays registered and is called.
* C99 IOAPIC interrupts: an interrupt handed to a callback is also left for poll and wait; only registrations acknowledge, so a component that only polls or waits gets one interrupt; a wait can miss the event marked between its look and its sleep.
* C100 hardware interrupts: for the type `arm` with a target core other than 0 the record given to drivers has no core, so that the request for that core finds nothing.
* C101: for the pools of endpoints and untypeds component.common.c:379 and :413 pass structs (`seL4_CanRead|seL4_CanWrite`) where the notification pool (:391) passes their words; these lines do not compile when such a pool is configured; the model takes the words as meant.
* C102 simple: untypeds smaller than a page are allocated and counted, but reported as the null capability with size 0; two settings for the same size (`simple_untyped12_pool`, `simple_untyped012_pool`) share their capabilities; the guessed size of the CNode is always one bit too large.
* C103 simple: where frames of different sizes begin at the same address, the lookup gives the frame that was allocated first, whatever size is asked for; a region that ends at the top of the address space is never found (its end wraps to 0); extended bootinfo longer than a page is read beyond the frame.
* C104 forward references: if an assembly comes before a component whose composition or configuration is a reference, a connection to an interface of an instance of that component ends in an AssertionError (within registers the unresolved reference), although references that cannot be resolved yet are to be left to the second pass. With the assembly after the component the same system is accepted.
* C105 IO ports: if two interfaces share a port, accesses use the capability and the error handler of the first one, and may fail although the interface accessed covers them. Ports from 65536 on are not refused in the attribute and wrap around, possibly to a port of another interface. The assertion on the offset covers the first port of a 16 or 32 bit access only, the rest is left to the kernel. The message of a failing write says that it failed to read.
* C106 sockets: if sock_read fails (-1), read passes -1 to memcpy as a length. If sock_socket fails, socket returns a descriptor for socket -1 instead of an error. bind, connect and setsockopt copy any length into the 4096 byte page and take any descriptor for a socket. Seen besides: accept returns -1 where system calls return a negative error number, and write without an original system call returns a positive error number.
* C108 CakeML: ffiopen_in tests for a failure and reports a success, and the other way round. ffiset_tls_cnode_cap reads at the beginning of the array, over the status byte, and so sets another capability than the one given in the usual form. ffiseL4_Send and ffiseL4_ReplyRecv check lengths neither against the array nor against the IPC buffer and complete messages with what was in the IPC buffer before; the receiver is not told the length in bytes. ffivirtqueue_device_recv checks the size of the array not at all.
* C109 syntax: the grammar is ambiguous. A type of one identifier is both `ID` and `struct_ref`, and the readings mean different things for attributes (a type name, a reference to a struct); it is the only ambiguity. A component cannot have a configuration without a composition, a schedule of one slot is a syntax error, and so is the semicolon after an attribute of a procedure.
* C110 memory table: for a stack whose size is not a whole number of pages the table says that its last bytes can be read and written, but they are not mapped; if the linker places the end symbol behind the stacks the table first describes the guard pages as zero-initialised data, and locking a guard page succeeds; the DMA pool is always described as uncached, also when it is configured to be cached.
* C111 threads: with an empty stack the fault handler fails an assertion when it draws the memory map; with scheduling contexts only the control thread records its own.
* C112 names and time: sethostname and setdomainname check the length they are given but then copy up to a NUL, so more characters than the length are taken, and for a name without a NUL memory behind it is read; the time starts again from zero after 2^32 milliseconds (49.7 days); the monotonic clock is not implemented.
* C113 system calls: camkes_sys_sigaction is never installed (the condition says __NR_sigcation); calling camkes_install_syscalls a second time makes close, read and write hand over to themselves; on targets without _newselect or fcntl64 (64-bit ones) the select and fcntl of the C library stay.
* C114 authority: the names of objects are connection_object, so a connection c with a shared buffer whose client has several threads and a connection called c_userspace_buffer share an endpoint: a component with no end of the second can receive the calls made over it. Likewise a semaphore b_ep of an instance a is the endpoint of a connection a_b. The emitter of a seL4NotificationQueue may also receive its events, the consumer of a seL4NotificationBind may signal itself.
* C115 integrity theory: (1) ASIDs are labelled with the instance and not with its group, so for an ASID pool in a group the label is not one of the policy. (2) The claim about further policy edges replaces names by groups on one side only: the generated lemma is false as soon as an edge mentions a grouped instance. (3) With a configured integrity_label L the theory speaks of the CNode L_cnode and of L_group_bin_pd, which do not exist. (4) Objects whose names start with root_untyped_ are taken for root untypeds; a component called root_untyped has none of its objects labelled.
* C116 architecture theory: (1) The proof of the last lemma names the constant assembly' literally, so the theory of an assembly with a name does not go through. (2) A composition (or assembly, configuration) with a name such as component__c1 defines a constant twice. (3) For dataports and events interface_is_exported gets the interface and not its name, never holds, and exported dataports and events are listed although exported procedures are not. (4) The claim that some component has control is false for systems of components without control.
* C117/C118 build description: (1) The file for an end is INTERFACE_CONNECTOR_ID.c: interface x with connector seL4_Foo and interface x_seL4 with connector Foo share a file. (2) All CakeML ends of an instance share connectorScript.sml. (3) Whether a binary is relocatable is decided with the hardware flag of the wrong instance (the loop variable is inst, the filter tests i): hardware in the same address space makes the only binary of a group relocatable, and it is then copied and not linked. (4) The set instancelist joins instance and interface with an underscore: instance a_b with interface c and instance a with interface b_c count as one, and the methods of the second are not offered to direct calls. (5) The symbol for a direct call joins connection and method: connection a, method b_c and connection a_b, method c get one name, defined twice in the group.
* C119/C120 memory of a call: (1) When a reply cannot be unmarshalled, the client stub has already freed the old value of inout strings and arrays up to the failing parameter and frees their new values again, leaving the caller with dangling pointers in these variables, while later inout variables still have to be freed by the caller; the caller is not told where the line is (C120_failed_refuted). (2) An implementation that leaves an output string or array unset makes the server read through NULL or an uninitialised count (C119_untouched_refuted).
* C121/C122 functions of a method: (1) Parameters x[] and x_sz give functions with two parameters of the same name, which does not compile; the parser accepts them (C121_names_refuted). (2) A method p with a parameter ret, or p_x with a parameter x_ret, gives the server two variables of the same name (C122_names_refuted). Both fail in the C compiler, in generated code.
* C123 error handling: (1) CE_OVERFLOW is raised by seL4NotificationQueue and seL4Notification, but the default handler (error.c:41) takes it for unreachable: with no handler registered an overflow is undefined behaviour instead of a halt (C123_overflow_refuted). (2) Registering NULL for an interface withdraws its handler; for the component it is called at the next error (C123_null_refuted). (3) Outside the model: component.template.h:265-268 declares a registration function for every interface, but only some connectors define it; seL4NotificationQueue-from and seL4IOAPICHardwareInterrupt pass a variable that is not set to make_error_handler, whose first assertion (helpers/error.c:13) then fails: these templates cannot be rendered.
* C124 event loop of a server: (1) If a handler answers CEA_IGNORE for an unknown method or badge, control runs into reply_recv and the caller gets the last response, made for another client, or, if that could not be marshalled, a reply of length UINT_MAX (C124_own_refuted, C124_leak). (2) rpc-connector-common-to.c:97-99 opens a brace for every badge of a type but line 229 closes one: with several interface types, two from ends of one type give C code that does not compile (C124_braces_refuted; C124_braces_partial says exactly when it is right).
* C125 RPC server in CakeML: (1) rpc_loop ignores the length of the message (parameter `length` is not used), so that a request that is too short is completed with bytes that an earlier message, possibly of another client, left in the array (C125_short_refuted); strings are searched for their NUL in the whole array. The C server refuses such requests. (2) A string that does not fit is cut off without an error (C125_long_refuted), and integers are silently reduced to the width of the type (C125_call). (3) Outside the model: for an interface without methods the generated case expression has an empty first alternative.
* C126 files of CakeML: ffiopen_in (io.c:17) tests `fd < 0` for success: opening a file for reading reports success exactly if it failed (C126_open_in_refuted); ffiopen_out has the test the right way round.
* C127 serial line: the driver asks whether there is a FIFO (enable_fifo, serial.c:265-275) after having disabled it; the IIR of a 16550 reports it only while it is enabled, so that it is never used and each character waits for the one before (C127_fifo_refuted). Characters waiting to be transmitted when the port is initialised are thrown away (C127_case_pending).
* C128 GPIO queries: a list of pins that cannot be read or parsed ends the parser with an AttributeError raised in the handler of the error (`.name` of a str), even if no gpio query is used (C128_bad_file_refuted; the same holds of --dtb); a gpio query without --gpio-list is an AttributeError too, not a parse error with its place (C128_missing_refuted).
* C129 testing an address before writing: if the word cannot be read, the load faults and is skipped with eax = 1, then the store faults with eax = 1, and the handler answers faults with eax = 0 only: the delegate waits for ever and GDB gets no reply to M or X with an unmapped address (C129_write_refuted, C70_write_error_refuted; C70_write_error_partial for memory that is mapped read-only).

Seen while reading, outside the theorems: `camkes_provide` does not check for duplicates; capability
0 is indistinguishable from failure; `check_irq_info_is_equal` is asymmetric; `scatter_send` leaks on
failure; `get_virtqueue_channel` is off by one at the maximum; `dtb()` without argument is a TypeError;
the message of `ast_property` mixes `%` and `{}`; the empty struct and inline structs as parameter
types end in AssertionError; `camkes_dma_get_paddr` dereferences a frame before its NULL check.
