{"id": "C01", "title": "Import inclusion: each reachable file exactly once, in declare-before-use order", "statement": "Parsing a root file with import statements reads exactly the files reachable through imports, includes every non-import statement of each of those files exactly once and in its in-file order, finishes for every (also cyclic) finite import graph, and, when file A imports B, everything B (transitively, first) contributes comes before whatever A says after that import.", "quantifier": "every finite file set, every import graph including cycles, diamonds and self imports, every resolution of import paths to files", "why_tests_cant": "The order and once-only inclusion depend on the whole graph shape; tests use a couple of fixed import trees.", "anchors": ["camkes/parser/stage2.py:Parse2.parse_file", "camkes/parser/stage1.py"]}
{"id": "C02", "title": "Flattened component instances have unique names", "statement": "After the hierarchical specification is flattened, no two component instances of the final system share a name, provided siblings inside one composition have distinct dot-free names.", "quantifier": "every component hierarchy of any depth and width, including a type instantiated many times", "why_tests_cant": "Collisions only appear for particular nesting/naming combinations; the hierarchy is unbounded.", "anchors": ["camkes/parser/stage7.py:infer_all", "camkes/parser/stage7.py:derive"]}
{"id": "C03", "title": "Flattening preserves address-space separation and sharing", "statement": "Two instances of the flattened system share an address space if and only if they sit in the same composition instance and were given the same address space there: nesting never merges, and never splits, user address spaces.", "quantifier": "every hierarchy, every assignment of address spaces to instances", "why_tests_cant": "Isolation is a relation over all pairs of instances in an unbounded tree.", "anchors": ["camkes/parser/stage7.py:derive", "camkes/parser/stage7.py:infer_all"]}
{"id": "C04", "title": "Flattening keeps every instance, connection and setting exactly once", "statement": "The flattened assembly holds exactly one instance per path in the hierarchy, one connection per declared connection per composition instance, and one setting per declared setting per composition instance, each under its path-prefixed name: nothing is lost, duplicated or invented.", "quantifier": "every hierarchy", "why_tests_cant": "Needs counting over all trees.", "anchors": ["camkes/parser/stage7.py:infer_all", "camkes/parser/stage7.py:Parse7.transform"]}
{"id": "C05", "title": "Connections reach the interface behind an export chain", "statement": "After flattening, every end of every connection designates the real (non-exported) interface that the export chain starting at the declared end leads to, the chain resolution terminates, and no end designates an interface that is only an export alias.", "quantifier": "every hierarchy, export chains of every length, every connection", "why_tests_cant": "Export chains have unbounded length; termination is not testable.", "anchors": ["camkes/parser/stage7.py:Parse7.transform", "camkes/parser/stage7.py:infer_all"]}
{"id": "C06", "title": "Attribute references resolve to the value at the end of the chain, loops are rejected", "statement": "Resolution of 'attribute <- other.attribute' settings terminates on every configuration; on success no setting is left holding a reference and each reference setting holds the value found by following the reference chain to the first concrete setting (or default); a chain that loops is rejected with a parse error, never silently accepted and never left diverging.", "quantifier": "every finite list of settings, chains of any length, any cyclic shape, any order of settings", "why_tests_cant": "Chains and cycles are unbounded; resolution mutates settings in place, so order matters.", "anchors": ["camkes/parser/stage8.py:resolve"]}
{"id": "C07", "title": "Attribute reference with dictionary lookup reads the looked-up entry", "statement": "A setting 'a <- b.c[\"k\"]' ends up holding the entry k of the value b.c resolves to, whether b.c is set directly or through further references.", "quantifier": "every configuration, every key path, every chain length", "why_tests_cant": "Depends on arbitrary chains.", "anchors": ["camkes/parser/stage8.py:resolve"]}
{"id": "C08", "title": "Connection merging loses no connectivity and leaves no shared interface", "statement": "When an interface end appears in several connections, the connections are merged: afterwards no interface end occurs in two connections, every original connection's ends lie together in one resulting connection of the same connector type, connections that shared no end with any other are untouched, and connections of different connector types sharing an end are rejected.", "quantifier": "every list of connections, every sharing pattern, every order of traversal", "why_tests_cant": "Merging is a transitive-closure problem; small examples pass while bridging patterns fail.", "anchors": ["camkes/parser/stage9.py:add_connections", "camkes/parser/stage9.py:consolidate", "camkes/parser/stage9.py:Parse9.transform"]}
{"id": "C09", "title": "Composition of several assembly blocks loses nothing", "statement": "When several assembly blocks are given, the resulting single assembly holds all instances, connections and settings of all of them in declaration order, and exactly one assembly remains; input without an assembly is rejected.", "quantifier": "every list of top level items", "why_tests_cant": "Quantifies over any number of assemblies.", "anchors": ["camkes/parser/stage6.py:compose_assemblies"]}
{"id": "C10", "title": "Group collapse: one address space per group", "statement": "After groups are collapsed every instance has an address space; instances of the same group share it, ungrouped instances keep their own, instances of different groups do not share one; no instance is lost or duplicated.", "quantifier": "every composition with any number of named and unnamed groups", "why_tests_cant": "Collisions depend on user chosen names.", "anchors": ["camkes/parser/stage5.py:collapse_groups"]}
{"id": "C11", "title": "Name lookup finds the innermost visible declaration", "statement": "Looking a name up in nested scopes returns the declaration in the innermost open scope that has a suitable kind; registering a second same-kind name in one scope is rejected; closing a scope restores exactly the earlier visibility.", "quantifier": "every sequence of open/close/register operations and every lookup", "why_tests_cant": "Histories of scope operations are unbounded.", "anchors": ["camkes/parser/scope.py:ScopingContext"]}
{"id": "C12", "title": "An accepted assembly has every interface connected at most once and every mandatory interface connected", "statement": "If the assembly freezes without error, no instance interface is an end of two connections, and each consumes/dataport/uses interface of each instance that is not optional is an end of some connection (or is merely passed on through an export by a compound component); an assembly violating either is rejected.", "quantifier": "every flattened assembly", "why_tests_cant": "Quantifies over all instances, interfaces and connections.", "anchors": ["camkes/ast/objects.py:Composition.freeze"]}
{"id": "C13", "title": "An accepted connection is well typed", "statement": "If a connection freezes without error, it has ends on both sides, every from end is emits/uses/dataport and every to end consumes/provides/dataport, the kinds agree with the connector's declared kinds, multiplicity is respected, hardware ends match the connector's flags, and (unless the connector disables the check) all ends share the same interface type.", "quantifier": "every connection and connector", "why_tests_cant": "All combinations of connector flags and ends.", "anchors": ["camkes/ast/objects.py:Connection.freeze"]}
{"id": "C14", "title": "Effective configuration: explicit setting wins, defaults fill in, duplicates rejected", "statement": "After freezing, looking up an instance attribute in the configuration yields the explicit setting if there is one, otherwise the declared default of that instance's component attribute, otherwise nothing; setting the same instance attribute twice is rejected.", "quantifier": "every list of settings, every set of instances and attributes", "why_tests_cant": "All key combinations and orders.", "anchors": ["camkes/ast/objects.py:Configuration.freeze", "camkes/ast/objects.py:Configuration.__getitem__"]}
{"id": "C15", "title": "A frozen specification object cannot change", "statement": "Once an AST object is frozen, no attribute assignment succeeds, nothing can unfreeze it, freezing again changes nothing; before freezing, assignments of admissible values take effect and nothing else changes.", "quantifier": "every sequence of assignments, freezes and reads", "why_tests_cant": "A property of all histories.", "anchors": ["camkes/ast/base.py:ASTObject", "camkes/ast/base.py:ast_property"]}
{"id": "C16", "title": "Equal AST objects hash equally and equality is an equivalence", "statement": "Structural equality on AST objects is reflexive, symmetric and transitive, ignores exactly the fields declared as not hashed, and equal objects have equal hashes.", "quantifier": "every pair/triple of object trees", "why_tests_cant": "Infinite set of trees; hash collisions cannot be enumerated.", "anchors": ["camkes/ast/base.py:ASTObject.__cmp__", "camkes/ast/base.py:ASTObject.__hash__", "camkes/internal/hash.py"]}
{"id": "C17", "title": "Source locations point at the original file and line", "statement": "For a token on some line of preprocessed input, the reported file and line are those given by the latest line marker before it plus the number of lines since.", "quantifier": "every preprocessed text with any number of line markers, every token position", "why_tests_cant": "All marker layouts.", "anchors": ["camkes/ast/location.py:SourceLocation"]}
{"id": "C18", "title": "Device-tree cells: packing and unpacking are inverse", "statement": "Packing integers into big-endian 32-bit cells and unpacking with the same cell counts returns the same integers; packing fails exactly when a value does not fit its cells, and never silently truncates.", "quantifier": "every list of values, every list of cell counts", "why_tests_cant": "Unbounded integer ranges.", "anchors": ["camkes/parser/fdtQueryEngine.py:FdtUnpacker", "camkes/parser/fdtQueryEngine.py:FdtPacker"]}
{"id": "C19", "title": "Device-tree register translation follows the bus ranges", "statement": "Translating a device's register through its parents' ranges yields, at each bus, parent base + (address - child base) for a range that contains the whole region, composes along the path to the root, and rejects regions that overrun a range.", "quantifier": "every chain of buses, every set of ranges, every register", "why_tests_cant": "Deep arithmetic on arbitrary tables.", "anchors": ["camkes/parser/fdtQueryEngine.py:FdtQueryEngine._resolve"]}
{"id": "C20", "title": "Untyped cover of a physical range", "statement": "The list of untypeds computed for a physical range is an exact partition of the range in address order, each piece a power of two in size and aligned to its size.", "quantifier": "every start > 0 and every size", "why_tests_cant": "Unbounded integers.", "anchors": ["camkes/templates/macros.py:get_untypeds_from_range"]}
{"id": "C21", "title": "Page rounding helpers", "statement": "next_page_multiple returns the least admissible page multiple not below the size; get_page_size and the shared-frame size choice return the largest supported page size dividing the size, and the frames allocated for a shared variable exactly cover it.", "quantifier": "every size and every architecture page-size list", "why_tests_cant": "Unbounded integers.", "anchors": ["camkes/templates/macros.py:next_page_multiple", "camkes/templates/macros.py:get_page_size", "camkes/runner/Context.py:calc_frame_size", "camkes/runner/Context.py:register_shared_variable"]}
{"id": "C22", "title": "Global endpoint notification badges are distinct one-bit values within the mask", "statement": "Badges handed to different ends that share an instance's global notification endpoint are pairwise distinct, each adds exactly one bit of the configured mask to the configured base, and exhaustion is reported as an error rather than by reuse.", "quantifier": "every composition, base, mask and badge width", "why_tests_cant": "All masks and numbers of ends.", "anchors": ["camkes/templates/macros.py:global_endpoint_badges"]}
{"id": "C23", "title": "Global RPC endpoint badges are distinct and within the mask", "statement": "Badges allocated for clients that share an instance's global RPC endpoint are pairwise distinct, use only mask bits (plus the base), and exhaustion is an error.", "quantifier": "every composition, base, mask and badge width", "why_tests_cant": "Carry-skipping arithmetic over arbitrary masks.", "anchors": ["camkes/templates/macros.py:global_rpc_endpoint_badges"]}
{"id": "C24", "title": "RPC connector badges: automatic assignment never clashes", "statement": "For an RPC connection, every client without an explicit badge gets one different from all explicit and all other automatic badges, explicit badges are kept.", "quantifier": "every list of from ends and explicit badges", "why_tests_cant": "The search is bounded by the number of ends; correctness needs a counting argument.", "anchors": ["camkes/templates/rpc-connector.c:allocate_badges"]}
{"id": "C25", "title": "Virtqueue client ids never clash", "statement": "Each interface without a configured id is assigned one distinct from all configured and all other assigned ids of that instance, configured ids are kept, and an id is always found.", "quantifier": "every list of interfaces and configured ids", "why_tests_cant": "Counting argument over all configurations.", "anchors": ["camkes/templates/macros.py:virtqueue_get_client_id"]}
{"id": "C26", "title": "Integrity group labels are canonical", "statement": "The integrity label map sends every grouped/labelled instance and internal connection to a label that is itself not remapped; cyclic labelling is reported, never looped on.", "quantifier": "every composition and label configuration", "why_tests_cant": "Chains and cycles of unbounded length.", "anchors": ["camkes/templates/macros.py:integrity_group_labels"]}
{"id": "C27", "title": "Thread list of an instance: control first, distinct names, one per declared interface thread", "statement": "The threads computed for a component instance start with the control thread, contain exactly the number of threads its connectors declare for each of its connection ends, have pairwise distinct names and stack/IPC symbols, and end with the fault handler iff enabled.", "quantifier": "every composition and instance", "why_tests_cant": "All names and connector thread counts.", "anchors": ["camkes/templates/macros.py:threads"]}
{"id": "C28", "title": "Template store: guarded values are created once and shared", "statement": "A value produced under a guard key is produced at most once per client and key and every later access sees that value; stash/pop behave like a per-client dictionary with removal; clients do not observe each other.", "quantifier": "every history of stash/pop/guard operations", "why_tests_cant": "Property over histories.", "anchors": ["camkes/runner/Context.py:stash", "camkes/runner/Context.py:pop", "camkes/runner/Context.py:guard"]}
{"id": "C29", "title": "Object/capability allocation is idempotent and rights only accumulate", "statement": "Allocating the same named object returns the same object; allocating the same named capability again in a cspace returns the same slot; its rights are the union of all rights requested; other slots and objects are unaffected.", "quantifier": "every history of alloc_obj/alloc_cap calls", "why_tests_cant": "Histories are unbounded.", "anchors": ["camkes/runner/Context.py:alloc_obj", "camkes/runner/Context.py:alloc_cap"]}
{"id": "C30", "title": "Generated symbols never repeat", "statement": "No two symbols generated for C templates during one render are equal whatever tags are requested.", "quantifier": "every sequence of symbol requests with arbitrary tags", "why_tests_cant": "String concatenation collisions.", "anchors": ["camkes/runner/Context.py:symbol"]}
{"id": "C31", "title": "RPC marshalling round trip", "statement": "For every method signature and every argument values, if marshalling succeeds, unmarshalling the transmitted message on the other side succeeds, consumes it exactly, and yields the same values (strings up to their terminator).", "quantifier": "every parameter list (scalars, strings, arrays, string arrays), every value, every buffer size and word size", "why_tests_cant": "Unbounded values; framing errors hide in rare lengths.", "anchors": ["libsel4camkes/include/camkes/marshal_macros.h", "camkes/templates/helpers/marshal.c"]}
{"id": "C32", "title": "RPC unmarshalling never reads outside the received message", "statement": "For an arbitrary (malicious) message, unmarshalling reads only bytes inside the message, either rejecting it or returning arrays whose stated length is backed by message bytes.", "quantifier": "every byte sequence, every parameter list", "why_tests_cant": "Adversarial inputs are unbounded.", "anchors": ["libsel4camkes/include/camkes/marshal_macros.h:UNMARSHAL_ARRAY_PARAM"]}
{"id": "C33", "title": "RPC method dispatch reaches the method called", "statement": "For every interface with up to 2^64 methods, the method index a client sends selects the same method on the server; out-of-range indices are rejected.", "quantifier": "every number of methods and every index", "why_tests_cant": "Boundary sizes 256, 65536, 2^32 are impractical to test.", "anchors": ["camkes/templates/macros.py:type_to_fit_integer", "camkes/templates/helpers/marshal.c:make_marshal_input_symbols", "camkes/templates/rpc-connector-common-to.c"]}
{"id": "C34", "title": "Event connector: a registered callback and a pending event never coexist, events are not lost", "statement": "For the event connector, in every interleaving of the delivery thread and any number of threads calling poll/wait/register: no state has both a registered callback and a consumable pending event, a registration never overwrites another, each registered callback runs at most once, and every delivered event is accounted for exactly once (pending, consumed by poll/wait/register, or delivered to a callback).", "quantifier": "every schedule, every number of threads, every number of events", "why_tests_cant": "Unbounded interleavings; the project's own SPIN model is bounded to 4 threads.", "anchors": ["camkes/templates/seL4Notification-to.template.c", "camkes/templates/seL4NotificationQueue-to.template.c"]}
{"id": "C35", "title": "Capability allocator never hands out a cap twice", "statement": "Between allocation and free, a capability provided once to the allocator is held by at most one client; allocation only returns a cap of the requested type, size and required attributes; freeing makes exactly that cap available again.", "quantifier": "every history of provide/alloc/free", "why_tests_cant": "Property over histories.", "anchors": ["libsel4camkes/src/allocator.c"]}
{"id": "C36", "title": "DMA allocator: returned regions are disjoint, aligned and inside the pool", "statement": "Every successful DMA allocation is aligned as requested, lies inside memory given to the pool, and is disjoint from every other live allocation and from the free list, through any history of allocations, frees and defragmentations.", "quantifier": "every history of alloc/free", "why_tests_cant": "Allocator state space is unbounded.", "anchors": ["libsel4camkes/src/dma.c:camkes_dma_alloc", "libsel4camkes/src/dma.c:camkes_dma_free"]}
{"id": "C37", "title": "DMA defragmentation preserves free memory", "statement": "Defragmenting the free list terminates, and keeps exactly the same set of free bytes (with their physical address and cacheability), only merging regions adjacent both virtually and physically.", "quantifier": "every free list", "why_tests_cant": "In-place pointer surgery with restarts; termination not testable.", "anchors": ["libsel4camkes/src/dma.c:defrag"]}
{"id": "C38", "title": "DMA allocation honours the requested cacheability", "statement": "A region allocated with the cached (uncached) flag is backed by cached (uncached) memory.", "quantifier": "every history of alloc/free", "why_tests_cant": "Depends on stale memory contents.", "anchors": ["libsel4camkes/src/dma.c:try_alloc_from_free_region"]}
{"id": "C39", "title": "Virtqueue buffer allocator", "statement": "Each allocated virtqueue buffer is inside the buffer area and disjoint from all live buffers; freed buffers become available again; allocation fails only if the request is too large or all buffers are in use.", "quantifier": "every history of alloc/free", "why_tests_cant": "Property over histories.", "anchors": ["libsel4camkes/src/virtqueue.c"]}
{"id": "C40", "title": "Interface registry: duplicate registrations rejected, others accepted and found", "statement": "Registering an interface instance under an interface type succeeds iff that instance is not already registered under the type, and a search under a type reports a match iff some instance registered under the type (and not unregistered since) is accepted by the caller's handler.", "quantifier": "every history of register/find", "why_tests_cant": "Property over histories.", "anchors": ["libsel4camkes/src/interface_registration.c"]}
{"id": "C41", "title": "Interrupt registration", "statement": "An interrupt can be registered at most once at a time, a handler fires only for the interrupt it was registered with, unregistered interrupts never fire a stale handler, acknowledgement reaches the interrupt that fired.", "quantifier": "every history of register/unregister/handle/acknowledge", "why_tests_cant": "Property over histories.", "anchors": ["libsel4camkes/src/irq.c"]}
{"id": "C42", "title": "Reply capability protection state machine", "statement": "A pending RPC caller's reply capability is never lost: before any operation that would overwrite it, it is saved exactly once, and the reply goes to that caller.", "quantifier": "every history of receive/protect/reply", "why_tests_cant": "Property over histories.", "anchors": ["libsel4camkes/src/tls.c", "camkes/templates/rpc-connector.c:reply_recv"]}
{"id": "C43", "title": "Merging of dictionary keys by device-tree queries", "statement": "Query results turned into template dictionaries keep every property.", "quantifier": "every query result dictionary", "why_tests_cant": "Key collisions are rare.", "anchors": ["camkes/parser/query.py:QueryParseStage"]}
{"id": "C44", "title": "Numeric constant expressions", "statement": "The text of a numeric expression has exactly one reading, and its value is that of integer arithmetic with C's operators and precedences (plus ** at the level of *; division rounds down; integers are unbounded); arithmetic errors are reported as parse errors.", "quantifier": "every expression of any depth, every token text", "why_tests_cant": "Infinitely many expressions and nestings; ambiguity is a statement about all pairs of derivations.", "anchors": ["camkes/parser/camkes.g:numeric_expr", "camkes/parser/stage3.py:_lift_numeric_expr", "camkes/parser/stage3.py:_lift_precedence11", "camkes/parser/stage3.py:_lift_number"]}
{"id": "C45", "title": "Reference resolution leaves no unresolved or wrong reference", "statement": "After name resolution succeeds, no reference is left, each was replaced by a declaration of the required kind with the referenced name visible at that point; a reference with no such declaration is rejected.", "quantifier": "every list of top level declarations", "why_tests_cant": "Quantifies over all specifications.", "anchors": ["camkes/parser/stage4.py:resolve"]}
{"id": "C46", "title": "Address-space to capability-space mapping", "statement": "The runner makes exactly one capability space and one address space per distinct address space of non-hardware instances and every such instance is rendered with the one of its address space.", "quantifier": "every flattened assembly", "why_tests_cant": "Quantifies over all instance lists.", "anchors": ["camkes/runner/__main__.py:main"]}
{"id": "C47", "title": "Output file, item and template lists line up", "statement": "Every requested output file is rendered from the item and template given at the same position; mismatched argument counts are rejected.", "quantifier": "every combination of argument list lengths", "why_tests_cant": "All triples of lengths.", "anchors": ["camkes/runner/__main__.py:main"]}
{"id": "C48", "title": "Isabelle identifiers do not clash", "statement": "Distinct hierarchical names, distinct kinds of entity and distinct dataport types map to distinct Isabelle identifiers, which are well-formed.", "quantifier": "every pair of names", "why_tests_cant": "Infinite strings.", "anchors": ["camkes/templates/macros.py:isabelle_ident", "camkes/templates/macros.py:isabelle_ADL_ident", "camkes/runner/Context.py:isabelle_dataport"]}
{"id": "C49", "title": "Type checking of configuration values", "statement": "If an assembly freezes, every setting of a declared attribute has a value of the declared type, with struct defaults filled in.", "quantifier": "every attribute type (including nested structs and arrays) and value", "why_tests_cant": "Recursive types and values are unbounded.", "anchors": ["camkes/ast/objects.py:types_compatible", "camkes/ast/objects.py:Assembly.freeze"]}
{"id": "C50", "title": "Interrupt lists from device-tree nodes", "statement": "Every interrupt described by a device node yields one descriptor with its number (offset for shared peripheral interrupts) and trigger mode; malformed lists are rejected.", "quantifier": "every interrupt cell list", "why_tests_cant": "Unbounded lists.", "anchors": ["camkes/templates/macros.py:parse_dtb_node_interrupts"]}
{"id": "C51", "title": "Reference to an attribute that is never set is dropped", "statement": "A setting that refers to an attribute having neither a setting nor a default (and whose own attribute has no default) is dropped from the configuration, and the rest of the specification is processed normally, as the resolution step documents.", "quantifier": "every configuration with at least one such setting", "why_tests_cant": "Has to hold whatever the remaining settings and their order are.", "anchors": ["camkes/parser/stage8.py:resolve", "camkes/ast/objects.py:Setting"]}
{"id": "C52", "title": "Schedules of all assembly blocks are kept", "statement": "When several assembly blocks are given, the domain schedule declared in any of them takes effect in the composed system.", "quantifier": "every list of top level items", "why_tests_cant": "Quantifies over any number and order of assembly blocks.", "anchors": ["camkes/parser/stage6.py:compose_assemblies", "camkes/runner/__main__.py"]}
{"id": "C53", "title": "DMA allocation does not fail spuriously", "statement": "A DMA allocation fails only if no free region of the requested cacheability has room for the block at a suitably aligned address (leaving either nothing or enough to keep as a region).", "quantifier": "every history of alloc/free, every size and alignment", "why_tests_cant": "The space of free list shapes and alignments is unbounded.", "anchors": ["libsel4camkes/src/dma.c:try_alloc_from_free_region", "libsel4camkes/src/dma.c:camkes_dma_alloc"]}
{"id": "C54", "title": "A failed RPC call does not block later calls", "statement": "When an RPC call through a locked shared buffer fails (arguments too large, malformed reply), the buffer lock is released on return, so later calls can proceed.", "quantifier": "every method, every argument list, every reply, every sequence of calls", "why_tests_cant": "The failure shows only in the call after a rare error, on the path of a custom error handler.", "anchors": ["camkes/templates/rpc-connector-common-from.c", "camkes/templates/rpc-connector.c:begin_send", "camkes/templates/rpc-connector.c:release_recv"]}
{"id": "C55", "title": "A rejected specification stays rejected", "statement": "If freezing an object is rejected, freezing the same unchanged object again is rejected too; a caller that catches the first error cannot end up with an accepted but ill-formed specification.", "quantifier": "every connection, procedure, method", "why_tests_cant": "A property of all objects and of histories of two calls.", "anchors": ["camkes/ast/objects.py:Connection.freeze", "camkes/ast/base.py:MapLike.freeze", "camkes/ast/objects.py:Method.freeze"]}
{"id": "C56", "title": "Names in an accepted interface or component can be used in C", "statement": "If a procedure freezes without error, its methods and attributes have distinct names, parameters of a method have distinct names, and no method, parameter or attribute name is a C keyword; likewise an accepted component has distinct entity names, attribute names that are no C keywords, is not both control and hardware, and has no mutexes or semaphores if it is hardware; anything else is rejected. Field names of a struct are distinct.", "quantifier": "every procedure, component and struct declaration", "why_tests_cant": "Quantifies over all declarations and names.", "anchors": ["camkes/ast/objects.py:Method.freeze", "camkes/ast/objects.py:Component.freeze", "camkes/ast/base.py:MapLike.freeze", "camkes/ast/ckeywords.py"]}
{"id": "C57", "title": "Device-tree queries select by path and properties", "statement": "A device-tree query selects, for each of its dictionaries, the first node in tree order whose path matches the path expression and whose properties have all the values asked for (one element by index, or all); if there is none the result is empty.", "quantifier": "every device tree, every query", "why_tests_cant": "Quantifies over all trees and queries; the failing case needs a path expression without matches.", "anchors": ["camkes/parser/fdtQueryEngine.py:FdtQueryEngine.query", "camkes/parser/fdtQueryEngine.py:DtbMatchQuery.resolve"]}
{"id": "C58", "title": "Device-tree aliases resolve to the aliased node", "statement": "Looking up an alias (or a chosen entry) yields the node at exactly the path the alias gives, or an error if there is none.", "quantifier": "every device tree, every alias", "why_tests_cant": "Depends on the other paths in the tree.", "anchors": ["camkes/parser/fdtQueryEngine.py:FdtQueryEngine._match_node_by_alias_or_chosen"]}
{"id": "C59", "title": "Device registers are mapped completely", "statement": "Every register region described by a device-tree node (address and size cells, big endian) is covered by the frames mapped for it, and frames are placed at multiples of their size.", "quantifier": "every list of register cells, every cell count, every set of page sizes containing 4096", "why_tests_cant": "Unbounded lists of regions and 64-bit addresses.", "anchors": ["camkes/templates/dtb-query-common.template.c:parse_dtb_node_reg", "camkes/templates/seL4DTBHardware-to.template.c", "camkes/templates/macros.py:next_page_multiple"]}
{"id": "C60", "title": "The method index type holds every method index", "statement": "For an interface with n methods, the integer type chosen to carry the method index on the wire can represent every index from 0 to n-1, and no smaller of the available types can.", "quantifier": "every number of methods up to 2^64", "why_tests_cant": "The boundaries 256/257 and 65536/65537 need interfaces with that many methods.", "anchors": ["camkes/templates/macros.py:type_to_fit_integer", "camkes/templates/helpers/marshal.c:92", "camkes/templates/rpc-connector-common-to.c:106"]}
{"id": "C61", "title": "A component starts up in order and gets to its run function", "statement": "In every interleaving of a component's threads: pre_init has ended before any interface thread does anything; post_init begins only when the initialisation function of every interface has ended; no run function is called before post_init has ended; passive interfaces are initialised one at a time and are ready to serve before the component's own run function is called; each of these functions is called at most once; every execution reaches the run functions; and no thread returns from its entry function.", "quantifier": "every set of connections (hence any number of threads), every choice of passive interfaces, with and without fault handlers and the mixed-criticality kernel, every schedule", "why_tests_cant": "The order depends on the interleaving of an unbounded number of threads; a lost or stolen wake-up shows only under particular schedules.", "anchors": ["camkes/templates/component.common.c:post_main", "camkes/templates/component.common.c:pre_init_interface_sync", "camkes/templates/component.common.c:post_init_interface_sync", "camkes/templates/component.environment.c:component_control_main", "camkes/templates/macros.py:threads"]}
{"id": "C62", "title": "Dataport pointers mean the same place at both ends", "statement": "A pointer into a dataport that one component wraps and its partner on the connection unwraps points to the same offset of the dataport in the partner's address space; a pointer into no dataport is not wrapped; a wrapped pointer with an unknown identifier unwraps to NULL; and unwrapping never yields an address outside the component's dataports.", "quantifier": "every set of dataports of two components (any number, base and size), every pointer, 32- and 64-bit words", "why_tests_cant": "The faulty cases depend on signedness of off_t against the type of the size expression and on the order of dataports.", "anchors": ["camkes/templates/seL4SharedData.template.c", "camkes/templates/seL4DMASharedData.template.c", "camkes/templates/seL4HardwareMMIO.template.c", "camkes/templates/component.common.c:dataport_wrap_ptr", "camkes/templates/component.common.c:dataport_unwrap_ptr"]}
{"id": "C63", "title": "Cache operations on a dataport touch exactly the requested bytes", "statement": "Flushing, cleaning or invalidating a part of a dataport issues system calls, each on a frame of that dataport and within it, that together cover exactly the requested bytes; a part that does not lie in the dataport is refused before any system call.", "quantifier": "every number of frames, page size, offset and size, wherever the dataport's frames lie among all dataport frames", "why_tests_cant": "Needs every alignment of both ends against page boundaries.", "anchors": ["libsel4camkes/src/arch/arm/dataport.c:camkes_dataport_arch_flush_cache"]}
{"id": "C64", "title": "Physical addresses of a hardware dataport translate exactly", "statement": "A physical region is translated to an address in a hardware dataport if and only if it lies wholly in the device's region, and then to the same offset.", "quantifier": "every device region, physical address and size", "why_tests_cant": "Edge and wrap-around values.", "anchors": ["camkes/templates/seL4HardwareMMIO.template.c:translate_paddr"]}
{"id": "C65", "title": "Each declaration becomes the object its author means", "statement": "For every declaration in the source language, the object produced from its parse tree has exactly the named parts, in source order and with the stated kinds, types, directions, defaults, flags and values; adjacent strings are joined, numbers are evaluated, and a dictionary holds each key once with the value given last.", "quantifier": "every declaration, of any nesting depth and size", "why_tests_cant": "Declarations nest without bound (compositions inside components inside compositions, structs inside structs) and every optional part combines with every other.", "anchors": ["camkes/parser/stage3.py:lift_raw", "camkes/parser/stage3.py:LIFT", "camkes/parser/camkes.g", "camkes/ast/objects.py:Connector.__init__"]}
{"id": "C66", "title": "A declaration is accepted exactly when all of it means something", "statement": "A declaration is turned into an object if and only if each number in it has a value, each dataport a positive size, no connector end a negative number of threads, each export names an interface of an instance, structs have fields, parameters have named types, and an assembly has one composition and at most one configuration and schedule; otherwise an error is raised.", "quantifier": "every declaration, of any nesting depth and size", "why_tests_cant": "A wrong part may sit at any depth.", "anchors": ["camkes/parser/stage3.py:lift_raw", "camkes/parser/stage3.py:_lift_export", "camkes/parser/stage3.py:_lift_dataport_type", "camkes/parser/stage3.py:_lift_connector_defn"]}
{"id": "C67", "title": "Debugger packets are recognised exactly", "statement": "A command sent to the debug server is acted upon when, and only when, the last checksum character of its packet arrives; noise, retransmissions and interrupted packets before it make no difference, and other characters have no effect.", "quantifier": "for every stream of characters and every state of the debugged component", "why_tests_cant": "the receiver is a state machine over unbounded streams; tests try a few packets", "anchors": ["libsel4camkes/src/sel4_arch/ia32/gdb_server/serial.c: handle_char, push_buffer, clear_buffer, serial_irq_handle", "gdb.c: handle_gdb"]}
{"id": "C68", "title": "A debugger packet with a wrong checksum is refused, one with a right checksum accepted", "statement": "A command is carried out iff the two hexadecimal digits after it are the sum of its characters modulo 256.", "quantifier": "for every packet", "why_tests_cant": "all bytes and lengths, including binary data", "anchors": ["libsel4camkes/src/sel4_arch/ia32/gdb_server/gdb.c: handle_gdb, compute_checksum"]}
{"id": "C69", "title": "Each debugger command gets exactly one well-formed reply", "statement": "Every command that expects an answer gets exactly one reply with a right checksum and without characters that need escaping; continue and step let the thread run exactly once; unsupported commands get the empty reply.", "quantifier": "for every command text and state", "why_tests_cant": "the command text is arbitrary input", "anchors": ["libsel4camkes/src/sel4_arch/ia32/gdb_server/gdb.c: handle_command, send_message, GDB_*"]}
{"id": "C70", "title": "Debugger memory commands access exactly the named range", "statement": "m, M and X read or write exactly the bytes of the range, or report an error and change nothing; no command makes the server crash.", "quantifier": "for every address, length, data and memory", "why_tests_cant": "addresses and lengths range over all words and memory over all layouts", "anchors": ["libsel4camkes/src/sel4_arch/ia32/gdb_server/gdb.c: GDB_read_memory, GDB_write_memory, GDB_write_memory_binary", "camkes/templates/component.debug.c: delegate_read_memory, delegate_write_memory"]}
{"id": "C71", "title": "Debugger register commands use the stopped thread's registers", "statement": "g, p, G and P read or write the named registers of the stopped thread, in GDB's numbering and byte order, and no others.", "quantifier": "for every register context, register and value", "why_tests_cant": "needs all values of all registers", "anchors": ["libsel4camkes/src/sel4_arch/ia32/gdb_server/gdb.c: GDB_read_general_registers, GDB_read_register, GDB_write_general_registers, GDB_write_register", "camkes/templates/component.debug.c: delegate_write_registers"]}
{"id": "C72", "title": "Breakpoints in force are those asked for", "statement": "After Z is confirmed the breakpoint is set in the kernel for the debugged thread, after z is confirmed it is not, and otherwise nothing changes.", "quantifier": "for every sequence of commands", "why_tests_cant": "sequences of commands are unbounded", "anchors": ["libsel4camkes/src/sel4_arch/ia32/gdb_server/gdb.c: GDB_breakpoint", "camkes/templates/component.debug.c: delegate_insert_break, delegate_remove_break"]}
{"id": "C73", "title": "A stop is reported once, with its cause", "statement": "When a debugged thread stops at a breakpoint, watchpoint, software breakpoint or after a step, exactly one stop reply with that cause is sent, the debugger works on that thread, and nothing else changes except that the instruction pointer is put back to a software breakpoint; asking again gives the same answer.", "quantifier": "for every thread, address, cause and state", "why_tests_cant": "needs every cause in every state of the debugger", "anchors": ["camkes/templates/seL4GDB-to.template.c: find_stop_reason, __run", "libsel4camkes/src/sel4_arch/ia32/gdb_server/gdb.c: gdb_handle_fault, GDB_stop_reason"]}
{"id": "C74", "title": "Step executes one instruction, continue runs freely", "statement": "After s the stopped thread executes exactly one instruction before it stops again, after c it runs until something else stops it, whatever was done before.", "quantifier": "for every session of stops, commands and resumptions", "why_tests_cant": "sessions are unbounded and stepping state is spread over the server and the kernel", "anchors": ["camkes/templates/seL4GDB-to.template.c: __run", "libsel4camkes/src/sel4_arch/ia32/gdb_server/gdb.c: GDB_continue, GDB_step", "camkes/templates/component.debug.c: delegate_resume, delegate_step"]}
{"id": "C75", "title": "Mapped device memory is the memory asked for", "statement": "When a driver maps a range of device memory, every byte of the range it gets is the byte of the device it asked for; a range covered by the dataports of the component is found.", "quantifier": "for every list of frames, address and size", "why_tests_cant": "the loop joins any number of frames and depends on their order and layout in two address spaces", "anchors": ["libsel4camkes/src/io.c: camkes_io_map", "libsel4camkes/include/camkes/dataport.h: dataport_frame_t"]}
{"id": "C76", "title": "Unmapping what is not mapped is diagnosed", "statement": "In a debug build unmapping a pointer is reported as an error exactly when it has been unmapped as often as it was mapped before.", "quantifier": "for every history of map and unmap calls", "why_tests_cant": "histories are unbounded and interleave pointers", "anchors": ["libsel4camkes/src/io.c: io_map, io_unmap, ll_remove, ll_prepend"]}
{"id": "C77", "title": "Driver initialisation", "statement": "Every device with a compatible driver module is given to the first such module in link order, again as long as the module defers, and then never again; when dependencies have no cycle all devices become ready.", "quantifier": "for every device tree, list of modules and behaviour of the modules", "why_tests_cant": "modules may defer any number of times depending on each other", "anchors": ["libsel4camkes/src/io.c: camkes_call_hardware_init_modules, find_compatible_driver_module, handle_defered_modules, defer_driver_init"]}
{"id": "C78", "title": "Virtqueue transfers", "statement": "Data the driver scatters over virtqueue buffers reaches the device unchanged and in order, data the device copies back reaches the driver, and the buffers become free again when the driver has collected them; data for which there is no room is refused and leaves no trace.", "quantifier": "for every block size, number of blocks and descriptors, and every interleaving of calls of the two sides", "why_tests_cant": "messages of any length are split over blocks whose order depends on the history of frees", "anchors": ["libsel4camkes/src/virtqueue.c: camkes_virtqueue_driver_scatter_send_buffer, camkes_virtqueue_driver_gather_copy_buffer, camkes_virtqueue_device_scatter_copy_buffer, camkes_virtqueue_device_gather_copy_buffer"]}
{"id": "C79", "title": "Message queues lose, duplicate and reorder nothing", "statement": "The receiver of a message queue gets every message that was accepted, once, unchanged and in order; sending fails exactly when the message is too long or the queue is full.", "quantifier": "for every message size, queue length and interleaving of sends and receives", "why_tests_cant": "buffers are recycled through two rings, so faults show only after particular histories", "anchors": ["libsel4camkes/src/msgqueue.c: camkes_msgqueue_send, camkes_msgqueue_get, msgqueue_alloc_buffer"]}
{"id": "C80", "title": "Locking, advising and querying memory succeed exactly for mapped ranges", "statement": "mlock, madvise and mincore succeed only if every byte of the range lies in a region that can be accessed, succeed for every such range, and report invalid arguments as such; mincore stores one byte for each page of the range.", "quantifier": "for every list of regions, address, length and page size", "why_tests_cant": "the answer depends on how a range lies across several regions, on gaps and guard pages, and on wrap-around", "anchors": ["libsel4camkes/src/sys_madvise.c: camkes_sys_madvise, camkes_sys_mincore, camkes_sys_mlock, covered"]}
{"id": "C81", "title": "select asks and answers for the right sockets", "statement": "select asks the socket server about exactly the sockets behind the descriptors in the sets, and marks a descriptor ready exactly if the server marked its socket.", "quantifier": "for every descriptor table, every three sets and every server", "why_tests_cant": "the two directions of renumbering are done in place, so they disturb each other only for particular tables", "anchors": ["libsel4camkes/src/sys_select.c: camkes_sys__newselect, fdset_to_sockset, sockset_to_fdset, find_max_sockfd"]}
{"id": "C82", "title": "A fault is shown at the right place of a true picture of the address space", "statement": "The memory map printed for a fault shows every region once, from top to bottom, with the gaps between regions, and marks the faulting address in exactly the regions that hold it; the numbers printed are those the kernel reported.", "quantifier": "for every memory map in any order, every address and every fault message", "why_tests_cant": "the printer selects the regions by repeated search, so omissions and wrong gaps depend on the whole map", "anchors": ["libsel4camkes/src/fault.c: camkes_show_fault, show_fault_location"]}
{"id": "C83", "title": "A virtqueue channel is found by id, role and name as it was registered", "statement": "After any registrations, looking up a virtqueue channel by id and role gives exactly the channel last registered under them with its buffer, length and functions; looking it up by name gives its id, or -1 for an unknown name; registration refuses invalid arguments.", "quantifier": "for every sequence of registrations and every lookup", "why_tests_cant": "lookups depend on the whole history of registrations and on gaps between ids", "anchors": ["libsel4camkes/src/virtqueue_template.c: camkes_virtqueue_channel_register", "libsel4camkes/src/virtqueue.c: get_virtqueue_channel, camkes_virtqueue_get_id_from_name, camkes_virtqueue_driver_init_with_recv, camkes_virtqueue_device_init_with_recv"]}
{"id": "C84", "title": "A message queue channel keeps its first registration", "statement": "A message queue registration is accepted exactly if its arguments are valid and the id is free, and from then on the channel is found under that id and role, unchanged by later registrations.", "quantifier": "for every sequence of registrations of senders and receivers", "why_tests_cant": "needs all histories of accepted and refused registrations", "anchors": ["libsel4camkes/src/msgqueue_template.c: camkes_msgqueue_channel_register_sender, camkes_msgqueue_channel_register_receiver, camkes_msgqueue_channel_get"]}
{"id": "C85", "title": "Stacks, IPC buffers and filled frames are mapped where they are used", "statement": "All bytes of a thread's stack below its initial stack pointer can be read and written and the pages below and above fault; the IPC buffer is the frame given to the TCB, at the address given to the TCB, between two unmapped pages; a filled symbol holds at each offset the byte of its source and cannot be written; different addresses are different memory.", "quantifier": "for every stack size, thread, symbol and source, and every address", "why_tests_cant": "the placement is arithmetic on sizes, and an error of one page shows only when a stack is used up or overflows", "anchors": ["camkes/templates/macros.py: thread_stack, ipc_buffer, ipc_buffer_address, Thread, ROUND_UP", "camkes/runner/Context.py: register_stack_symbol, register_ipc_symbol, register_fill_frame", "camkes/templates/component.common.c: device tree symbol"]}
{"id": "C86", "title": "A dataport has the access rights that were asked for", "statement": "The attribute <dataport>_access with any of the letters R, W, X gives exactly those rights, without the attribute all rights are given, and strings with other letters are refused.", "quantifier": "for every attribute string", "why_tests_cant": "strings are unbounded; an excess right is not observable in normal operation", "anchors": ["camkes/templates/macros.py: get_perm", "docs/index.md: Dataport access rights"]}
{"id": "C87", "title": "The scheduling properties of a thread are those set for it", "statement": "Priority, maximum priority, affinity, domain, period, budget, data and size of the scheduling context of each thread are those set for the thread, or else for the instance, or else the defaults; a passive interface has no scheduling context; setting a property of one thread changes nothing else.", "quantifier": "for every set of attributes, every thread and property", "why_tests_cant": "non-interference is a statement about all pairs of threads, properties and names", "anchors": ["camkes/templates/macros.py: sc_properties, tcb_properties, set_tcb_properties", "camkes/templates/component.common.c: thread properties", "docs/index.md: Thread priorities"]}
{"id": "C88", "title": "The value of an attribute in C is the value that was set", "statement": "The C constant generated for an attribute, read as a C initialiser, is the value the attribute was set to: strings, numbers, structs field by field and arrays element by element, to any depth; header and source declare it with the same type, length and value.", "quantifier": "for every attribute type and value", "why_tests_cant": "types and values nest without bound, and strings are arbitrary", "anchors": ["camkes/templates/macros.py: show_attribute_value, show_type", "camkes/templates/component.common.c: attributes", "camkes/templates/component.template.h: attributes"]}
{"id": "C89", "title": "The struct types of attributes are defined in C as they were declared", "statement": "Each struct used in an attribute type, at any depth, is defined exactly once, before its uses, with its fields in order and arrays of the lengths of the values set.", "quantifier": "for every list of attributes and settings", "why_tests_cant": "depends on sharing of structs between attributes and on nesting of any depth", "anchors": ["camkes/templates/macros.py: print_type_definitions"]}
{"id": "C90", "title": "Error messages point at the offending text", "statement": "An error raised with a file, line and columns shows the file name, the line number, the text of that line and, below it, marks under exactly the columns given, followed by the message; without columns only the line, without a readable file only the place, without a place only the message.", "quantifier": "for every file content, place, message and kind of error", "why_tests_cant": "file names, line lengths and line and column numbers are unbounded, and the alignment depends on the lengths of their decimal forms", "anchors": ["camkes/internal/exception.py: _get_line, CAmkESError._format_message", "camkes/parser/exception.py: ParseError", "camkes/ast/exception.py: ASTError", "camkes/templates/exception.py: TemplateError", "camkes/internal/terminal.py"]}
{"id": "C91", "title": "The files the C preprocessor read are the dependencies written for make", "statement": "The rule that the C preprocessor writes for make is read back as exactly the files it names; these and the input file are recorded as read without duplicates; the rule written for the build system, read by make, depends on exactly the files read; text that is no rule is refused.", "quantifier": "for every list of file names and every layout of the rule with continued lines", "why_tests_cant": "the number of dependencies, their names and where lines are continued are not bounded", "anchors": ["camkes/parser/stage0.py: parse_makefile_rule, CPP.parse_file", "camkes/parser/__main__.py: main (dependency rule)", "camkes/runner/__main__.py: main (dependency rule)"]}
{"id": "C92", "title": "The checker for templates accepts exactly well-formed templates", "statement": "The checker accepts every template whose markers come in matching pairs and whose directives are well-formed (blocks nested and ended by their own directive, elif and else in their place, break and continue in loops, assignments with a name and a value); what it accepts is nested in this sense; everything else is refused with an error.", "quantifier": "for every sequence of markers and directives", "why_tests_cant": "templates are nested to any depth", "anchors": ["tools/jinja_lint.py: main"]}
{"id": "C93", "title": "Parsing keeps every declared instance and separates address spaces", "statement": "After the whole parser has run on a specification with any number of assemblies, nested components and groups, the instances are exactly those declared, one for each path through the hierarchy and named by it; two of them share an address space only if they are members of the same group of the same composition.", "quantifier": "for every well-scoped specification that is accepted", "why_tests_cant": "depth and number of compositions, groups and assemblies are not bounded", "anchors": ["camkes/parser/parser.py: Parser", "camkes/parser/stage5.py", "camkes/parser/stage6.py", "camkes/parser/stage7.py", "camkes/ast/base.py: MapLike.freeze"]}
{"id": "C94", "title": "Parsing connects the interfaces that were connected", "statement": "Every end of a connection that is written means exactly one interface of an instance, found through the chain of exports; the parsed system has connections with exactly these ends; the ends of a written connection are together in one of them, connections are joined only when chained by interfaces they share, and no interface is at the same side of two connections.", "quantifier": "for every well-scoped, resolved specification that is accepted", "why_tests_cant": "export chains, hierarchies and sets of connections that share ends are not bounded", "anchors": ["camkes/parser/parser.py: Parser", "camkes/parser/stage6.py", "camkes/parser/stage7.py", "camkes/parser/stage9.py"]}
{"id": "C95", "title": "Parsing gives every attribute the value its setting denotes", "statement": "In the parsed system an attribute of an instance has a value exactly when its setting, read where it is written and followed through references down the hierarchy to a literal or a default, gives that value, or when it is not set and has that default.", "quantifier": "for every well-scoped specification that is accepted, every instance and attribute", "why_tests_cant": "chains of references through compositions have any length", "anchors": ["camkes/parser/parser.py: Parser", "camkes/parser/stage7.py", "camkes/parser/stage8.py", "camkes/ast/objects.py: Configuration.freeze"]}
{"id": "C96", "title": "Correct specifications are accepted by the whole parser", "statement": "If a specification has an assembly, uses only types declared before, gives the instances and connections of each composition different names, sets every attribute at most once to a value or to a reference that leads to a value or default, and every connection shares at most one end with others, all of the same type, then parsing it does not fail in any stage.", "quantifier": "all specifications of any number of components, assemblies and nesting depth", "why_tests_cant": "A test accepts one specification; that no stage rejects or crashes on the output of the earlier ones, for every hierarchy, needs the invariants between the stages.", "anchors": ["camkes/parser/parser.py: Parser, parse_file", "camkes/parser/stage5.py: Parse5.transform", "camkes/parser/stage6.py: Parse6.transform", "camkes/parser/stage7.py: Parse7.transform", "camkes/parser/stage8.py: Parse8.transform", "camkes/parser/stage9.py: Parse9.transform", "camkes/parser/stage10.py: Parse10.transform"]}
{"id": "C97", "title": "Emitting an event to several receiving ends", "statement": "With seL4NotificationQueue every emit posts to each receiving end at most once and in order; an emit that returns has reached every end once; every event that reached an end is received there exactly once or is still pending; a receiver can go on as long as events are pending; an emit fails only at an end whose counter is at its maximum. With seL4Notification an emit signals every end exactly once, and an end can receive exactly when an emit has reached it since it last received.", "quantifier": "any number of receiving ends and of emits running at the same time, every interleaving of their steps with those of the receivers", "why_tests_cant": "A test runs one interleaving with few ends; that no event is lost or made up while emits and receivers overlap is a claim about all interleavings and all counter values.", "anchors": ["camkes/templates/seL4NotificationQueue-from.template.c: emit_underlying", "camkes/templates/seL4NotificationQueue-to.template.c: __run", "camkes/templates/seL4Notification-from.template.c: emit_underlying", "camkes/templates/seL4Notification-to.template.c: __run"]}
{"id": "C98", "title": "Callbacks of the IOAPIC interrupt connector", "statement": "A callback registered with seL4IOAPICHardwareInterrupt is put in a slot at most once, is called at most once, and is called when the next interrupt is delivered; registering returns 0 only if the callback was registered, -1 without registering it only if each slot was found taken, and never blocks; the callback gets the argument it was registered with and is not called after -1 was returned.", "quantifier": "any number of threads registering, polling and waiting, every interleaving with interrupts and their delivery", "why_tests_cant": "The slots are shared without a lock by the delivery thread and any number of registering threads; a test sees one interleaving.", "anchors": ["camkes/templates/seL4IOAPICHardwareInterrupt.template.c: __run, _reg_callback"]}
{"id": "C99", "title": "Events of the IOAPIC interrupt connector", "statement": "Poll and wait take as many events as interrupts were delivered at most; a poll succeeds exactly if an event was marked and not taken; the assertions on the number of sleepers hold; no thread sleeps in wait while an event is pending; interrupts continue to come to a component that only polls or waits; an interrupt is reported once.", "quantifier": "any number of threads, every interleaving", "why_tests_cant": "Lost wake-ups and double reports depend on the interleaving.", "anchors": ["camkes/templates/seL4IOAPICHardwareInterrupt.template.c: __run, _poll, _wait, _reg_callback"]}
{"id": "C100", "title": "Settings of hardware interrupts", "statement": "From the settings of a seL4HardwareInterrupt connection an interrupt object and a record for drivers are made exactly if the settings describe an interrupt (simple, IOAPIC, MSI or ARM with trigger and core); both are that interrupt; otherwise the error names a setting that is wrong; a driver that asks for the interrupt as described finds it.", "quantifier": "all configurations, interface and instance names, and requests", "why_tests_cant": "The settings are independent and their combinations, defaults and wrong values are unbounded.", "anchors": ["camkes/templates/seL4HardwareInterrupt.template.c", "libsel4camkes/src/irq.c"]}
{"id": "C101", "title": "Mutexes of drivers", "statement": "The mutexes in existence use different notifications of the pool; making a mutex succeeds exactly if memory can be had, the initialisation succeeds and fewer mutexes exist than the pool has notifications; failed calls cost nothing; destroying a mutex gives its notification back.", "quantifier": "all pools and all sequences of calls with any outcome of allocation and initialisation", "why_tests_cant": "Leaks on error paths and reuse show only after particular long sequences of calls.", "anchors": ["libsel4camkes/src/sync.c: camkes_mutex_new, camkes_mutex_free", "libsel4camkes/src/allocator.c", "camkes/templates/component.common.c: init"]}
{"id": "C102", "title": "Enumeration of capabilities of a component with the simple interface", "statement": "The number of capabilities reported is the number of objects of the settings (CNode, address space, untypeds of the pools, frames, IO ports, IO spaces, device untypeds, free slot); each number below it gives a capability for the object of that number in the order of the settings and all others are refused; no capability is given out twice; untypeds are reported with their size, address and kind; the last capability is the greatest in use and all fit into a CNode of the reported size.", "quantifier": "all settings, all numbers", "why_tests_cant": "The ranges of the switch are computed from seven lists of any length; an off-by-one shows only for particular combinations of them.", "anchors": ["camkes/templates/component.simple.c: simple_camkes_nth_cap, simple_camkes_cap_count, simple_camkes_nth_untyped, camkes_make_simple"]}
{"id": "C103", "title": "Lookups of the simple interface", "statement": "A frame, IO port range, IO space or interrupt that is found by the simple interface is one of the settings and covers what was asked for; a lookup fails only if none of the settings does; extended bootinfo is that of the type asked for, cut to the given length.", "quantifier": "all settings, addresses, sizes, ports, devices, interrupts and contents", "why_tests_cant": "Boundaries of regions and the overlap of regions with different frame sizes cannot be enumerated.", "anchors": ["camkes/templates/component.simple.c: simple_camkes_get_frame_cap, simple_camkes_get_IOPort_cap, simple_camkes_get_iospace, simple_camkes_get_irq, camkes_get_extended_bootinfo"]}
{"id": "C104", "title": "Resolution with forward references", "statement": "With forward references allowed, the resolved system contains no references and no cycles and differs from the parsed one only in that references have become objects; an unqualified reference becomes the nearest declaration of its name and class, whether it comes before or after; declarations of one name and kind side by side are refused; resolution always ends, with a result or an error.", "quantifier": "all specifications (trees of any size), all references", "why_tests_cant": "Replacing references in place changes what later lookups see; whether an order of declarations matters depends on all combinations of depth, order and shadowing.", "anchors": ["camkes/parser/stage4.py: resolve, check_acyclic", "camkes/parser/scope.py: ForwardScopingContext, ScopingContext.lookup, within", "camkes/ast/base.py: ASTObject.preorder"]}
{"id": "C105", "title": "Access to IO ports", "statement": "Reading or writing at an offset of an IO port interface accesses the port at that offset, with the value given, if the access lies within the ports of the interface; offsets behind the last port stop the component, accesses that only end behind it leave the device alone and ask the error handler of the interface; no port outside the component's ranges is ever touched.", "quantifier": "all lists of IO port interfaces of a component, offsets, widths, values, error handlers and devices", "why_tests_cant": "Which capability is used depends on the other interfaces of the component; tests need hardware and see only some offsets and widths.", "anchors": ["camkes/templates/seL4HardwareIOPort.template.c", "libsel4camkes/src/arch/x86/io.c: camkes_io_port_in, camkes_io_port_out, find_io_port_region"]}
{"id": "C106", "title": "Sockets", "statement": "Writes to a socket hand their first bytes, at most a page, to the network server and return its answer, so that repeated writes deliver all bytes in order; reads give the bytes the server provides, in order and without loss; addresses and options arrive as given; socket and accept open a descriptor that was closed and close closes it at the server and locally; every server socket in use is behind exactly one descriptor; other files never reach the server.", "quantifier": "all servers, all sequences of calls, all data and sizes, all tables of descriptors", "why_tests_cant": "Data of any size passes through one shared page in pieces that the server chooses; the relation between descriptors and server sockets depends on all previous calls.", "anchors": ["libsel4camkes/src/sys_io.c: camkes_sys_read, camkes_sys_write, camkes_sys_close, camkes_sys_fcntl64", "libsel4camkes/src/sys_socket.c: camkes_sys_socket, camkes_sys_bind, camkes_sys_connect, camkes_sys_listen, camkes_sys_accept, camkes_sys_setsockopt"]}
{"id": "C107", "title": "Traversals of ASTs", "statement": "A top-down traversal gives the action everything below the object, each once, what is above first and otherwise from left to right; a bottom-up traversal the same with what is above last. Whatever the action does, it is given only what was in the AST from the start, with as many open contexts as there are objects between it and the root, and all contexts are closed at the end, also after an exception, which ends the traversal at once. What an action replaces top-down is replaced as it stands and not traversed again; what is neither replaced nor below a replacement stays. If the action does not look below what it is given both orders give the same. No traversal changes a frozen AST.", "quantifier": "all ASTs, all actions with any state, replacements and exceptions", "why_tests_cant": "Order, contexts and replacement must hold for every nesting of objects and every action; all resolution of references is built on these two functions.", "anchors": ["camkes/ast/base.py: ASTObject.preorder, ASTObject.postorder, ASTObject.freeze", "camkes/ast/traversal.py: TraversalAction, TraversalContext, NullContext"]}
{"id": "C108", "title": "Functions for CakeML programs", "statement": "Opening gives the descriptor of the file of the given name or reports a failure; reading, writing and closing act on that descriptor and give the bytes and numbers of the file system; messages sent arrive with the bytes sent, the badge and a length that is less than a word longer; virtqueues carry messages of at most a block in order and unchanged, and fail exactly when the message is too long, there is no room or there is nothing to receive or collect; capabilities given in the form of all other functions are set.", "quantifier": "all file systems, kernels, names, descriptors, messages, arrays and sequences of virtqueue calls", "why_tests_cant": "Numbers pass through byte arrays in two byte orders; every length and descriptor must survive; sequences of calls on a virtqueue are unbounded.", "anchors": ["libcamkescakeml/src/io.c: ffiopen_in, ffiopen_out, ffiread, ffiwrite, fficlose", "libcamkescakeml/src/ipc.c: ffiset_tls_cnode_cap, ffiseL4_Recv, ffiseL4_ReplyRecv, ffiseL4_Send, ffiseL4_Wait", "libcamkescakeml/src/virtqueue.c: ffivirtqueue_driver_send, ffivirtqueue_device_recv, ffivirtqueue_driver_recv"]}
{"id": "C109", "title": "A specification has one reading", "statement": "A text can be read as at most one sequence of declarations; a declaration is recognised without regard to what follows it; the text of a file inserted between declarations of another is read as its declarations at that place. Whichever way a type of one identifier is taken, the same texts are accepted and the readings differ in nothing else.", "quantifier": "all sequences of tokens and all declarations, of any size and depth", "why_tests_cant": "Ambiguity is a statement about all texts and all pairs of derivations; two thirds of the rules are mutually recursive or repeat.", "anchors": ["camkes/parser/camkes.g: start, assembly_decl, component_decl, composition_decl, configuration_decl, connector_decl, procedure_decl, struct_decl, type, item", "camkes/parser/stage1.py: Parse1"]}
{"id": "C110", "title": "A component's table of its memory is true", "statement": "Of each byte of the stacks and the IPC buffers the table of memory regions says that it can be read and written if it is mapped so, and that it cannot be accessed if an access to it faults. Therefore neither locking memory nor asking which pages are present succeeds for a guard page, and a thread can lock pages of its stack.", "quantifier": "all instances with any connections and settings, all placements of the variables without overlap, all addresses", "why_tests_cant": "Whether a region is described correctly depends on the placement of the linker and on sizes of the stacks; a wrong boundary is only seen by a program that touches exactly these bytes.", "anchors": ["camkes/templates/component.common.c: camkes_vmas (970-1089), stacks and IPC buffers (449-460)", "libsel4camkes/include/camkes/vma.h: struct camkes_vma", "libsel4camkes/src/sys_madvise.c: mlock, mincore, madvise", "camkes/templates/linker.lds"]}
{"id": "C111", "title": "Threads know who they are", "statement": "Each thread gets its own number, TCB, IPC buffer and thread-local storage and no two threads share them; its name is that of its interface, or control or fault_handler; the fault of a thread is reported with the name and the memory map of this thread and no other, and an address in its stack or its IPC buffer is shown in a region with the right name; process numbers of instances differ from each other and from that of the parent.", "quantifier": "all assemblies, all instances and their threads, all assignments of distinct capability slots, all addresses", "why_tests_cant": "The code is generated from the list of threads; a mistaken index appears only with certain numbers and orders of connections.", "anchors": ["camkes/templates/component.common.c: get_thread_name, camkes_tls_init, fault handler thread (580-690)", "libsel4camkes/src/fault.c: camkes_show_fault", "libsel4camkes/src/sys_exit.c: camkes_sys_gettid, camkes_sys_getpid, camkes_sys_getppid"]}
{"id": "C112", "title": "The names of the machine and the time are those that were set", "statement": "After any sequence of calls the host and domain names are NUL-terminated texts, namely those set by the last successful call for each; uname reports them with fixed system name and a machine text; too long names and null pointers are refused and change nothing. The time reported is that of the component's millisecond clock, with less than 10^9 nanoseconds, and never decreases while the clock does not.", "quantifier": "all sequences of calls with any names and lengths, all prior contents of the structure, all clock readings", "why_tests_cant": "The invariant is about all histories; overlong or unterminated names and the 32-bit limit of the clock are boundaries tests rarely reach.", "anchors": ["libsel4camkes/src/sys_uname.c: camkes_sys_uname, camkes_sys_sethostname, camkes_sys_setdomainname", "libsel4camkes/src/sys_clock.c: camkes_sys_clock_gettime", "libsel4camkes/src/sys_yield.c: camkes_sys_sched_yield"]}
{"id": "C113", "title": "System calls reach their implementations", "statement": "After installation every system call that a component implements, and that exists on the target, is directed to its function; all others keep the function of the C library; close, read and write know the functions that were there before them.", "quantifier": "all targets (sets of defined system calls with distinct numbers, options) and all prior tables", "why_tests_cant": "Which lines of the table are compiled depends on the target; a test runs on one.", "anchors": ["libsel4camkes/src/vsyscall.c: syscalls, camkes_install_syscalls", "libsel4camkes/src/sys_io.c: camkes_install_io_syscalls"]}
{"id": "C114", "title": "Only the ends of a connection get authority over it", "statement": "After all connector templates of an assembly have been rendered, in any order, each end holds capabilities to the kernel objects it deals with, with the rights of its side; a sender and a receiver of a connection hold capabilities to one object. Conversely a component holds a capability to an object of a connection only if one of its interfaces is an end of that connection that deals with the object, and a right only if such an end has it by its side: only receivers can receive, only senders can send. Locks and handoff endpoints are in the capability space of their own component only. Objects of different connections are different, of the expected kind and label. The order of rendering does not matter.", "quantifier": "all sets of connection ends of the communication connectors, with any names, numbers of ends and address spaces, together with any objects of the components' own", "why_tests_cant": "The absence of a capability is a statement about all components and all names of an assembly; tests look at capabilities that are expected to be there.", "anchors": ["camkes/templates/rpc-connector.c: establish_from_rpc, establish_recv_rpc", "camkes/templates/seL4Notification-from.template.c", "camkes/templates/seL4Notification-to.template.c", "camkes/templates/seL4NotificationQueue-from.template.c", "camkes/templates/seL4NotificationQueue-to.template.c", "camkes/templates/seL4NotificationNative-from.template.c", "camkes/templates/seL4NotificationBind-to.template.c", "camkes/runner/Context.py: alloc_obj, alloc_cap"]}
{"id": "C115", "title": "The generated integrity theory labels what exists", "statement": "In the generated theory CDL_Refine every kernel object other than the root untypeds has exactly one label, the group of the instance, connection or address space for which it was allocated, and nothing else is labelled; interrupts and ASIDs have the labels of their objects; every label is the group of an instance or connection; the claims about groups, further policy edges, CNodes, control threads and page directories of components are true of the objects allocated.", "quantifier": "all assemblies, group labels, sets of allocated objects and further policy edges", "why_tests_cant": "Tests check that the theory is processed for some systems; they do not relate the labels to the objects of any system, and a missing label is not an error.", "anchors": ["camkes/templates/cdl-refine.thy", "camkes/templates/arch-definitions.thy: group_labels, policy_extra", "camkes/templates/macros.py: integrity_group_labels, isabelle_ident", "camkes/runner/Context.py: object_label_mapping", "camkes/runner/__main__.py: allocation of CNodes and page directories"]}
{"id": "C116", "title": "The generated architecture theory says what the assembly is", "statement": "In the generated theory Arch_Spec every constant is defined once and before it is mentioned, and following the definitions from the constant of the assembly gives back the assembly: every instance with the interfaces, types, parameters, directions and attributes of its component, every connection with its ends and its connector, the groups, the settings and the further policy edges. Interfaces that have to be connected are at an end of exactly one connection, and every end is an interface of exactly one component. The theory is generated unless a parameter is an array of a type that cannot be printed. Restrictions: names that look like those that the template makes, and named assemblies, can break it.", "quantifier": "for all assemblies with well-formed names, of any number of instances, connections, types, methods and parameters", "why_tests_cant": "A test inspects the theory of one assembly; that every reference resolves to the right definition for every assembly, with dots and kinds in names, is a statement about all of them.", "anchors": ["camkes/templates/arch-definitions.thy", "camkes/runner/Context.py:uniq", "camkes/runner/Context.py:isabelle_dataport", "camkes/templates/macros.py:isabelle_ADL_ident", "camkes/ast/objects.py:interface_is_exported", "camkes/ast/objects.py:Composition.freeze"]}
{"id": "C117", "title": "The build generates the code of every connection end once, for the right instance", "statement": "For every end of a connection at an instance with code, the build description requests one source file, from the connector's template for that side and into the directory of the instance, and a header if the connector has a template for it; for an instance in CakeML the connector's CakeML template is used if there is one. The item given to the tool denotes that end, and is rendered in the address space of the instance. Every instance with code gets its component files, with those for debugging, simple, rumprun and single threads iff they are asked for; hardware gets none. The headers generated for an instance are those that its camkes.h includes. No file is requested twice (restricted to connector types without underscores, components without own templates, and one CakeML end for an instance). An unknown environment is an error.", "quantifier": "for all assemblies, of any number of instances, connections, ends, templates and interfaces", "why_tests_cant": "A test builds some assemblies; that files and items match for every set of names, and that no two requests collide, is a statement about all assemblies.", "anchors": ["camkes/templates/camkes-gen.cmake", "camkes/runner/__main__.py:main"]}
{"id": "C118", "title": "Instances of an address space are linked into one binary, in which direct calls reach the other end", "statement": "Every instance with code belongs to the binary of its address space and to no other, hardware to none, and no binary is empty. Binaries are relocatable iff they are linked with others (unless hardware shares the address space). In the copies that are linked, all symbols of an instance are private except the methods that it offers over seL4DirectCall, and in the binary of a group the reference of a caller to a method is bound to one definition, the method of the `to' end of the same connection. objcopy accepts the options. Restricted to names that can be told apart when they are joined with underscores.", "quantifier": "for all assemblies and all tables of symbols, of any number of instances, groups, connections and methods", "why_tests_cant": "A test links some systems; that no symbol of one component is visible to another and that every direct call has exactly one target depends on all names in the system.", "anchors": ["camkes/templates/camkes-gen.cmake", "camkes/templates/seL4DirectCall-from.template.c", "camkes/templates/seL4DirectCall-to.template.c"]}
{"id": "C119", "title": "A server frees what a request made it allocate, once", "statement": "Handling a request, for every message, every failing allocation and every method, the server frees only blocks that are in use and reads only through pointers to such blocks. A message that is refused leaves the memory as it was. After the implementation has been called, exactly the blocks its parameters and its result refer to are freed, whether or not the response fits; if it keeps nothing for itself, the memory is as before the request. The implementation gets the values of the message. Assumed of the implementation: it leaves all parameters and its result in order; that it may leave output parameters unset is refuted.", "quantifier": "for all messages, methods, parameter lists, allocation failures and implementations", "why_tests_cant": "A leak or a double free shows only for the message and the failing allocation that take the faulty clean-up path; there is one path for each parameter, string and error.", "anchors": ["libsel4camkes/include/camkes/marshal_macros.h", "camkes/templates/helpers/marshal.c:make_unmarshal_input_symbols", "camkes/templates/rpc-connector-common-to.c"]}
{"id": "C120", "title": "A caller owns what a call returned, and nothing is leaked by a failed one", "statement": "The client stub frees only blocks that are in use. A call that returns has put the result and the outputs into fresh blocks, each variable having its own, has freed the old values of variables passed both ways, and has changed no other memory. A request that does not fit changes nothing. When the reply cannot be unmarshalled no block is leaked, and the variables from some parameter on are untouched; that all variables are still usable is refuted.", "quantifier": "for all replies, methods, parameter lists and allocation failures", "why_tests_cant": "The state of the caller's variables differs for each parameter at which a reply can break off and each allocation that can fail.", "anchors": ["libsel4camkes/include/camkes/marshal_macros.h", "camkes/templates/helpers/marshal.c:make_unmarshal_output_symbols", "camkes/templates/rpc-connector-common-from.c"]}
{"id": "C121", "title": "The C functions of a method have the types the interface promises, everywhere", "statement": "For every method the prototype in the components' headers, the function generated for the caller, and the declaration of the implementation generated for the other end have the same result type and the same parameter types in the same order: inputs by value, const char * for strings, a count and a pointer for arrays, and references, const where only read, for the other directions. The parameters have different names if no name is another one followed by a suffix used by the generator; refuted without this.", "quantifier": "for all methods: any number of parameters of any direction, type, and array or not", "why_tests_cant": "Three templates write the signature independently, each with a branch for every direction, array, and string; a mismatch in one combination is an undefined call at link time, across components compiled separately.", "anchors": ["camkes/templates/component.template.h", "camkes/templates/helpers/marshal.c:show_input_parameter_list", "camkes/templates/rpc-connector-common-from.c", "camkes/templates/rpc-connector-common-to.c", "camkes/templates/macros.py:show_type"]}
{"id": "C122", "title": "Every parameter of a call reaches its place, with its type", "statement": "The caller's stub passes its own parameters, in order and with the declared types, to the functions that fill the request and read the reply; the server reads the request into variables of the parameters' types, passes each of them or a reference to it to the implementation at the position and with the type of the parameter, stores the result, and fills the reply from them. Inside these functions each parameter is handled by the macro for its kind, the same on both sides, applied to variables of this parameter. Variables have different names except in the cases refuted.", "quantifier": "for all methods, buffers and names", "why_tests_cant": "Two parameters of the same type exchanged, or a missing address operator, compile with at most a warning; every combination of directions and kinds has its own branch.", "anchors": ["camkes/templates/helpers/marshal.c", "camkes/templates/rpc-connector-common-from.c", "camkes/templates/rpc-connector-common-to.c"]}
{"id": "C123", "title": "Errors reach the handler that is responsible, and its answer is obeyed", "statement": "An error in glue code is delivered to exactly one handler: the one last registered for the interface, else the one last registered for the component, else the default one, also if handlers register others while they run. It carries the location. The answer decides whether the program continues, leaves by the given statement, aborts or halts. Registering returns the previous handler, so that nested uses restore it. Without an error, and in the modes without handlers, no handler is called. There is no undefined behaviour if NULL is not registered for the component, the error is not an overflow, and the answer is valid; refuted without the first two.", "quantifier": "for all programs of registrations and errors, nested to any depth, all handlers, and both kinds of kernel", "why_tests_cant": "The responsible handler depends on the whole history of registrations at several places, including those made by handlers; the macro has a branch for each answer, some of which never return.", "anchors": ["libsel4camkes/src/error.c", "libsel4camkes/include/camkes/error.h:ERR", "camkes/templates/helpers/error.c:make_error_handler"]}
{"id": "C124", "title": "A client gets the response to its own request", "statement": "A server answers a request for an existing method with the response of this method to this request, or not at all if one of them cannot be transmitted; requests with unknown methods or badges get no answer if the handler discards them. Every reply is a response to the request it answers if no handler ignores such errors; refuted otherwise: the previous response is sent. The braces of the generated loop match if and only if the from ends have one type or pairwise different types.", "quantifier": "for all sequences of requests, all methods, types and badges, and all answers of the error handler", "why_tests_cant": "The length and the buffer live on between turns of the loop, so a wrong jump shows only for particular sequences of requests from different clients; the shape of the generated code depends on the number of types and ends.", "anchors": ["camkes/templates/rpc-connector-common-to.c"]}
{"id": "C125", "title": "A C client and a CakeML server understand each other", "statement": "A request marshalled by a C client reaches a CakeML server as a call of the same method with the same numbers and strings, independently of earlier messages, and the client gets the results of the method, integers being reduced to the width of their type, if they fit an IPC buffer. Exactly unsigned integers of fixed width and strings are supported; unknown badges and methods call nothing. Requests that are too short, and results that are too long, are refused: refuted, they are completed with bytes of earlier messages, and cut off.", "quantifier": "for all interfaces, methods, numbers of parameters, arguments and results, all previous contents of the buffers, and both word sizes", "why_tests_cant": "Two independently written marshallers in different languages must agree on every type and number of methods; what an earlier message leaves in the array shows only for particular sequences of messages.", "anchors": ["camkes/templates/seL4RPCCall-to.template.cakeml:rpc_loop", "camkes/templates/component.environment.start.cakeml:bytes_to_int", "libcamkescakeml/src/ipc.c:ffiseL4_ReplyRecv"]}
{"id": "C126", "title": "File functions of CakeML components report what happened", "statement": "Opening, reading and writing a file pass descriptor, number and position of bytes to the system, and deliver its result: success exactly if the system call succeeded, with the descriptor or the number of bytes. Refuted for opening for reading, which reports success exactly if it failed.", "quantifier": "for all results of the system calls, descriptors, data and positions", "why_tests_cant": "Results come from the file system; byte order and position must be right for all values.", "anchors": ["libcamkescakeml/src/io.c:ffiopen_in", "libcamkescakeml/src/io.c:ffiwrite"]}
{"id": "C127", "title": "Everything printed on the serial line of the debugger is transmitted", "statement": "After initialisation, which sets all registers whatever they were before, every character printed is transmitted exactly once and in order, with a carriage return before each line feed, at any speed of the device, with or without a FIFO; printing ends if the device keeps transmitting. The FIFO is used if there is one: refuted for devices that do not report a disabled FIFO.", "quantifier": "for all texts, all speeds and timings of the device, all initial registers, with and without FIFO", "why_tests_cant": "Whether a character is lost depends on the timing of the device relative to the accesses of the driver; simulated ports are infinitely fast.", "anchors": ["libsel4camkes/src/sel4_arch/ia32/gdb_server/serial.c:serial_output_via_fifo", "libsel4camkes/src/sel4_arch/ia32/gdb_server/serial.c:serial_init"]}
{"id": "C128", "title": "A GPIO query stands for the pins asked for and those of the platform; files of queries used are dependencies", "statement": "Each query takes the last value of its own option from the command line, and all other arguments are left in order. A setting with a gpio query gets the pins asked for and all pins of the file given (or, with a lookup, the value at that place); other settings and the order stay. The files reported for the build are those already read and the files given for the kinds of queries used, no others. Missing or bad files are reported as parse errors: refuted.", "quantifier": "for all command lines, files, settings and lookups", "why_tests_cant": "Dependencies of the build matter only when a file changes later; options, files and settings interact in unboundedly many ways.", "anchors": ["camkes/parser/gpioQueryEngine.py:GPIOMatchQuery", "camkes/parser/query.py:parse_query_parser_args", "camkes/parser/query.py:resolve"]}
{"id": "C129", "title": "Testing an address for the debugger ends with the right answer", "statement": "Before memory is read or written for GDB, the delegate tries the word at the address; a fault is turned into the result 1 by the memory fault handler. For every address, memory and register contents the test ends, with 0 if the word can be read (written) and 1 if not, and memory is as before. Refuted for writing: if the word cannot be read, the delegate never continues.", "quantifier": "for all memories, addresses, places of the code and contents of registers", "why_tests_cant": "The protocol between the instructions and the fault handler depends on the memory map of the debugged component; a test sees a few mapped and unmapped addresses on one machine.", "anchors": ["camkes/templates/component.debug.c:check_read_memory", "camkes/templates/component.debug.c:check_write_memory", "camkes/templates/seL4GDBMem-to.template.c"]}
