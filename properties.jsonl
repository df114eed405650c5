{"id": "C01", "title": "Rendered CSS contains every declaration exactly once, in order, under its own conditions", "statement": "Reading the text returned by to_style_str(class) as CSS yields exactly the declarations of the sheet, in document order, none lost, none duplicated, none invented, each nested under exactly the at-rule conditions that enclose it in the sheet (outermost first) followed by the innermost selector that applies to it.", "quantifier": "all sheets (any depth, any nesting of blocks and at-rules, including shapes only the AST API can build) whose fragments are lexically closed, and all class names", "why_tests_cant": "The writer keeps open/closed flags on a chain of contexts and reopens conditions lazily; only an induction over every nesting shows that no shape mis-nests or loses a declaration.", "anchors": ["packages/stylist-core/src/ast/context.rs: StyleContext::{start,finish,close_until_common_parent,with_block_condition,with_rule_condition}", "packages/stylist-core/src/ast/block.rs", "packages/stylist-core/src/ast/rule.rs", "packages/stylist-core/src/ast/style_attr.rs", "packages/stylist-core/src/ast/sheet.rs"]}
{"id": "C02", "title": "Rendered CSS is balanced and leaves nothing open", "statement": "Whatever the sheet, the text written by to_style_str closes every block it opens: scanning the text never sees more `}` than `{` and ends at depth zero, provided the user's fragments contain no braces themselves; and after writing, no context is left open.", "quantifier": "all sheets whose fragments are brace-free, all class names", "why_tests_cant": "Balance is a global property of arbitrarily deep output.", "anchors": ["packages/stylist-core/src/ast/context.rs", "packages/stylist-core/src/ast/to_style_str.rs"]}
{"id": "C03", "title": "Rendered text is canonically laid out", "statement": "to_style_str produces one line per opened condition, closing brace and declaration, each indented by four spaces per open condition, for arbitrary fragments.", "quantifier": "all sheets, all class names, no condition on the fragments", "why_tests_cant": "The indentation is recomputed from context comparisons at every line; equality with the canonical layout must be shown for every context history.", "anchors": ["packages/stylist-core/src/ast/context.rs: write_padding, write_min_padding", "packages/stylist-core/src/ast/style_attr.rs"]}
{"id": "C04", "title": "Only keyframes are printed when empty", "statement": "A sheet without any declaration and without any @keyframes rule renders to the empty string; a @keyframes rule is always printed, even without frames.", "quantifier": "all sheets without declarations, at any nesting depth; all @keyframes rules", "why_tests_cant": "Quantifies over all declaration-free trees.", "anchors": ["packages/stylist-core/src/ast/rule.rs: always_print", "packages/stylist-core/src/ast/context.rs: start/finish"]}
{"id": "C05", "title": "A scoped selector mentions its class", "statement": "With a class name, every selector is rendered so that it mentions `.class`: a selector containing `&` or `:root` has every such occurrence replaced by `.class` and is otherwise unchanged, a selector starting with `:` is glued to `.class`, and any other selector is prefixed by `.class` and a space.", "quantifier": "all selectors (any fragments), all class names", "why_tests_cant": "Selectors are unbounded strings and the two replacements interact; testing covers a handful of shapes.", "anchors": ["packages/stylist-core/src/ast/selector.rs: Selector::write_style"]}
{"id": "C06", "title": "Global selectors are kept verbatim except for &", "statement": "Without a class name every `&` becomes `:root` and nothing else changes; dangling declarations are written under `:root`.", "quantifier": "all selectors and sheets rendered without a class name", "why_tests_cant": "Unbounded strings.", "anchors": ["packages/stylist-core/src/ast/selector.rs", "packages/stylist-core/src/ast/context.rs: with_block_condition"]}
{"id": "C07", "title": "Quoted text in selectors is preserved", "statement": "Text inside a quoted string of a selector (e.g. an attribute value) is rendered unchanged.", "quantifier": "all selectors with quoted strings, all class names", "why_tests_cant": "Needs every possible quoted content; a single `&` inside quotes decides it.", "anchors": ["packages/stylist-core/src/ast/selector.rs"]}
{"id": "C08", "title": "Dangling declarations apply to the element carrying the class", "statement": "A declaration outside any block is rendered under `.class` (or `:root` for a global style) and under the at-rules around it, at any at-rule depth.", "quantifier": "all sheets and at-rule nestings", "why_tests_cant": "Unbounded nesting.", "anchors": ["packages/stylist-core/src/ast/context.rs: with_block_condition", "packages/stylist/src/style.rs docs", "packages/stylist/src/global_style.rs docs"]}
{"id": "C09", "title": "Parsing always terminates with Ok or Err", "statement": "Sheet::from_str terminates on every string and returns Ok or Err; its repetition combinators never run without consuming input and its recursion depth is bounded by the input length.", "quantifier": "all strings (any Unicode content, any length)", "why_tests_cant": "Termination for every input cannot be tested.", "anchors": ["packages/stylist-core/src/parser.rs: Parser::parse and every nonterminal", "packages/stylist-core/src/ast/sheet.rs: from_str"]}
{"id": "C10", "title": "Nothing is silently ignored by the parser", "statement": "If Sheet::from_str returns Ok, the parser has consumed the entire input: a trailing fragment it does not understand is an error, never dropped.", "quantifier": "all strings", "why_tests_cant": "The grammar is built on many0, which stops silently at the first failure; that the outermost loop turns this into an error must hold for every input.", "anchors": ["packages/stylist-core/src/parser.rs: sheet, scope, scope_contents, parse"]}
{"id": "C11", "title": "Well-formed CSS is parsed to what it says, whatever its layout", "statement": "Every text of the documented syntax (declarations, blocks with selector lists, @media/@supports/@container nesting, @keyframes), written with arbitrary whitespace and comments between tokens, is accepted and yields exactly the sheet it denotes; two texts that differ only in layout yield equal sheets.", "quantifier": "all sheets of the documented grammar, all placements of whitespace and comments between tokens", "why_tests_cant": "Infinite family of inputs; ordered-choice parsing makes every alternative depend on all earlier ones failing.", "anchors": ["packages/stylist-core/src/parser.rs: all nonterminals"]}
{"id": "C12", "title": "Shape guarantee of parsed sheets", "statement": "Every sheet returned by the parser is of the supported shape: property names are identifiers, values are single trimmed fragments, selectors are single trimmed fragments, blocks contain only declarations and @media/@supports/@container rules (no nested blocks), at-rules start with one of the four supported names followed by a space, keyframes contain only frames.", "quantifier": "all strings accepted by the parser", "why_tests_cant": "Universally quantified over inputs.", "anchors": ["packages/stylist-core/src/parser.rs: attribute, condition, block, rule_block, at_rule, keyframes"]}
{"id": "C13", "title": "Generated CSS can be parsed again", "statement": "For a sheet of the supported shape, the generated CSS is accepted by the library's own parser and denotes the same declarations under the same conditions, so the debug-mode re-parse in style creation does not panic.", "quantifier": "all sheets of the supported shape with lexically clean fragments, all clean class names, scoped or global", "why_tests_cant": "Composition of two recursive programs over all trees.", "anchors": ["packages/stylist/src/manager/mod.rs: get_or_register_style (debug_parser)", "packages/stylist-core/src/parser.rs", "packages/stylist-core/src/ast/context.rs"]}
{"id": "C14", "title": "A declaration before a block stays a declaration", "statement": "A top-level declaration `key: value;` followed by a block is parsed as that declaration and that block.", "quantifier": "all declarations and all following blocks", "why_tests_cant": "Depends on the interaction of ordered choice with every possible following selector.", "anchors": ["packages/stylist-core/src/parser.rs: dangling_block, attributes, block, selector"]}
{"id": "C15", "title": "Selector lists are split at top-level commas only", "statement": "The selectors of a block are exactly the comma-separated members of its selector list; commas inside quotes or inside parentheses do not separate selectors.", "quantifier": "all selector lists", "why_tests_cant": "Unbounded strings.", "anchors": ["packages/stylist-core/src/parser.rs: condition, selector"]}
{"id": "C16", "title": "Blank space inside empty braces does not matter", "statement": "An empty at-rule, frame or block is accepted with any whitespace between its braces.", "quantifier": "all layouts inside empty braces, all at-rule kinds", "why_tests_cant": "Each nonterminal trims differently.", "anchors": ["packages/stylist-core/src/parser.rs: rule_block_contents, keyframes, scope_contents, block_contents"]}
{"id": "C17", "title": "The parse cache is transparent", "statement": "Whatever strings were parsed before, in whatever order, Sheet::from_str(s) returns what parsing s afresh returns; failures are never cached.", "quantifier": "all histories of from_str calls (from any threads; the lock serialises them)", "why_tests_cant": "Quantifies over histories.", "anchors": ["packages/stylist-core/src/ast/sheet.rs: CACHED_SHEETS, from_str"]}
{"id": "C18", "title": "Equal styles share one class and one style element", "statement": "Creating a style whose (global?, prefix, sheet) is registered in a manager returns the registered class name and text and changes neither the registry nor the document.", "quantifier": "all reachable manager states and all keys", "why_tests_cant": "State-dependent over all histories.", "anchors": ["packages/stylist/src/manager/mod.rs: get_or_register_style", "packages/stylist/src/manager/registry.rs", "packages/stylist/src/style.rs: create_impl", "packages/stylist/src/global_style.rs"]}
{"id": "C19", "title": "Counter-based class names never collide", "statement": "Without the `random` feature, two different style creations never yield the same id, whatever the prefixes and whether scoped or global, for fewer than 2^64 creations; with `random`, ids are distinct whenever the drawn suffixes are.", "quantifier": "all pairs of creations in a history, all prefixes", "why_tests_cant": "Prefixes are arbitrary strings; collision freedom is an injectivity statement over unbounded inputs.", "anchors": ["packages/stylist/src/utils.rs: get_next_style_id, get_entropy", "packages/stylist/src/manager/key.rs: new_scoped, new_global"]}
{"id": "C20", "title": "Registry consistency", "statement": "In every reachable state each manager holds at most one style per key, each registered style carries the key it is registered under, and its text is the rendering of its sheet under its own id (scoped) or no class (global).", "quantifier": "all histories of create / clone / drop / unregister / manager drop", "why_tests_cant": "Invariant over unbounded histories.", "anchors": ["packages/stylist/src/manager/registry.rs", "packages/stylist/src/manager/content.rs", "packages/stylist/src/manager/mod.rs"]}
{"id": "C21", "title": "A style is in the document exactly while it is alive", "statement": "In a browser, at every point of every history, the document contains exactly one style element, with the right id and text, for every style that is registered or has a live handle, and none for any other style: an unregistered style disappears exactly when its last clone is dropped.", "quantifier": "all histories of operations over any number of managers mounted into the document, with selector-safe ids", "why_tests_cant": "Reference counting over all interleavings of clone, drop, unregister and re-creation.", "anchors": ["packages/stylist/src/manager/content.rs: Drop", "packages/stylist/src/manager/mod.rs: mount, unmount", "packages/stylist/src/style.rs: unregister"]}
{"id": "C22", "title": "Style elements appear in creation order", "statement": "With the default append mode every newly mounted style element is placed after everything already in its container.", "quantifier": "all reachable states", "why_tests_cant": "All histories.", "anchors": ["packages/stylist/src/manager/mod.rs: mount"]}
{"id": "C23", "title": "Prepend mode puts style elements first", "statement": "With append(false) a newly created style element becomes the first child of the container.", "quantifier": "all container contents", "why_tests_cant": "Depends on DOM semantics for every container content.", "anchors": ["packages/stylist/src/manager/mod.rs: mount (append == false)"]}
{"id": "C24", "title": "Failed creation leaves no trace", "statement": "If creating a style returns an error (no document, no container, DOM error), the registry and the document are unchanged and a later creation is not affected.", "quantifier": "all states and all failing creations", "why_tests_cant": "All states.", "anchors": ["packages/stylist/src/manager/mod.rs: get_or_register_style, mount"]}
{"id": "C25", "title": "Managers are isolated", "statement": "Operations on one manager never change which styles another manager has registered, and never remove or alter style elements of styles owned by another manager.", "quantifier": "all histories over any set of managers", "why_tests_cant": "All interleavings.", "anchors": ["packages/stylist/src/manager/mod.rs", "packages/stylist/src/manager/registry.rs"]}
{"id": "C26", "title": "Unregister affects only the style it is called on", "statement": "style.unregister() makes this style (and only this style) go away once its clones are freed.", "quantifier": "all histories", "why_tests_cant": "Needs a history with re-creation between two unregister calls.", "anchors": ["packages/stylist/src/manager/content.rs: unregister", "packages/stylist/src/manager/registry.rs: unregister"]}
{"id": "C27", "title": "Dropping a manager releases its styles", "statement": "When the last handle of a manager is dropped, styles only it kept alive leave the document, styles with live handles stay until those are dropped, and unregister on such a handle is a no-op.", "quantifier": "all histories", "why_tests_cant": "All histories with weak references.", "anchors": ["packages/stylist/src/manager/mod.rs: WeakStyleManager", "packages/stylist/src/manager/content.rs"]}
{"id": "C28", "title": "Hydration reproduces the server's class names", "statement": "After loading the style data collected by a static-mode server manager (with no unregistration during rendering), creating on the client any style created on the server returns the same class name and mounts no element; loading does not panic on an empty client manager.", "quantifier": "all server histories of creations, all keys", "why_tests_cant": "Relates two unbounded histories.", "anchors": ["packages/stylist/src/manager/mod.rs: load_style_data", "packages/stylist/src/manager/ssr.rs: render_static, StaticReader, StaticWriter"]}
{"id": "C29", "title": "A hydrated style has the same text as on the server", "statement": "get_style_str of a hydrated style equals get_style_str of the server's style.", "quantifier": "all styles, scoped and global", "why_tests_cant": "Quantifies over all sheets.", "anchors": ["packages/stylist/src/manager/mod.rs: load_style_data"]}
{"id": "C30", "title": "Static mode records every style once, in order, and never touches the document", "statement": "With a StaticWriter, each creation of an unregistered key appends exactly one record (key, id, text) and each creation of a registered key none; the document is never modified.", "quantifier": "all histories", "why_tests_cant": "All histories.", "anchors": ["packages/stylist/src/manager/mod.rs: get_or_register_style (ssr)", "packages/stylist/src/manager/ssr.rs"]}
{"id": "C31", "title": "Collected style data is a stable snapshot", "statement": "A StyleData value obtained during rendering is not changed by styles created later.", "quantifier": "all histories after the snapshot", "why_tests_cant": "Copy-on-write sharing over all later histories.", "anchors": ["packages/stylist/src/manager/ssr.rs: as_vec_mut, read_style_data", "packages/stylist/src/yew/provider.rs"]}
{"id": "C32", "title": "Style data collected by a server manager can always be loaded", "statement": "Loading the style data of any server rendering into a fresh client manager does not panic.", "quantifier": "all server histories, including unregistration", "why_tests_cant": "Needs an unregister/re-create history on the server.", "anchors": ["packages/stylist/src/manager/mod.rs: load_style_data (assert_eq)"]}
{"id": "C33", "title": "Serialized sheets and style data round-trip", "statement": "Deserializing a serialized sheet, style key, style id or StyleData gives back an equal value (style text of StyleData is dropped by design), independently of how borrowed or owned the original was, of field order and of whether the format writes the names of fields.", "quantifier": "all sheets and style data values", "why_tests_cant": "Structural induction over all trees.", "anchors": ["packages/stylist-core/src/ast/*.rs derive(Serialize, Deserialize)", "packages/stylist-core/src/bow.rs", "packages/stylist-core/src/ast/sheet.rs", "packages/stylist/src/manager/key.rs", "packages/stylist/src/manager/mod.rs: StyleData"]}
{"id": "C34", "title": "Borrowed and boxed AST nodes are indistinguishable", "statement": "Equality, hashing, cloning, dereferencing and serialization of Bow do not depend on whether the value is borrowed or boxed.", "quantifier": "all values, all combinations", "why_tests_cant": "Universal statement.", "anchors": ["packages/stylist-core/src/bow.rs"]}
{"id": "C35", "title": "String-literal macros substitute arguments exactly", "statement": "The sheet built by css!/style!/sheet! from a string literal renders to the same CSS as the parsed literal with every `${name}` replaced by the Display text of its argument and every `$${` replaced by `${`.", "quantifier": "all literals accepted by the macro and all argument values", "why_tests_cant": "Unbounded literals and values; fragments are split and re-joined.", "anchors": ["packages/stylist-macros/src/literal/to_output_with_args.rs", "packages/stylist-macros/src/literal/fstring.rs", "packages/stylist-macros/src/output/str_frag.rs: fragment_coalesce"]}
{"id": "C36", "title": "Macro arguments are exactly the placeholders", "statement": "The string-literal macro compiles only if every placeholder has an argument, every argument is used, and no argument is given twice.", "quantifier": "all literals and argument lists", "why_tests_cant": "All combinations.", "anchors": ["packages/stylist-macros/src/literal/mod.rs: macro_fn", "packages/stylist-macros/src/literal/to_output_with_args.rs"]}
{"id": "C37", "title": "Literal text with `{` or `$` in quotes survives the macro", "statement": "Any literal without placeholders accepted by the runtime parser is accepted by the macro.", "quantifier": "all literals", "why_tests_cant": "All strings.", "anchors": ["packages/stylist-macros/src/literal/fstring.rs: literal, fragments"]}
{"id": "C38", "title": "Placeholder scanning round-trips", "statement": "Writing any sequence of literal pieces and placeholders in the `${name}` / `$${` notation and scanning it gives back that sequence.", "quantifier": "all sequences of pieces", "why_tests_cant": "Unbounded.", "anchors": ["packages/stylist-macros/src/literal/fstring.rs: Parser::parse"]}
{"id": "C39", "title": "Interpolated values are never cached", "statement": "Every evaluation of a macro uses the current values of its interpolated expressions: a sheet with an interpolated part is never placed in a static or const, and whatever is placed in a const or static is independent of local variables, so the generated code is accepted by rustc's const/static rules and each evaluation equals the un-cached one.", "quantifier": "all macro inputs and all sequences of environments the expansion is evaluated in", "why_tests_cant": "Soundness of an effect analysis over all trees and all evaluation histories.", "anchors": ["packages/stylist-macros/src/output/context.rs", "packages/stylist-macros/src/output/maybe_static.rs", "packages/stylist-macros/src/output/rule_block_content.rs", "packages/stylist-macros/src/output/sheet.rs", "packages/stylist-macros/src/output/cow_str.rs"]}
{"id": "C40", "title": "Runtime-parsed and macro-parsed text give the same CSS", "statement": "For the same placeholder-free literal, css!(lit) and parsing the literal at run time render to identical CSS.", "quantifier": "all literals accepted by both, all class names", "why_tests_cant": "All literals.", "anchors": ["packages/stylist-macros/src/literal/mod.rs", "packages/stylist-macros/src/output/*.rs", "packages/stylist-core/src/ast/*.rs"]}
{"id": "C41", "title": "Runtime-parsed and macro-parsed text are the same style", "statement": "For the same placeholder-free literal, css!(lit) and parsing the literal at run time give equal sheets, hence one registry entry.", "quantifier": "all literals accepted by both", "why_tests_cant": "All literals.", "anchors": ["packages/stylist-macros/src/output/str_frag.rs: fragment_coalesce", "packages/stylist-core/src/parser.rs: at_rule_condition", "packages/stylist/src/manager/key.rs"]}
{"id": "C42", "title": "Inline token spacing follows the documented rule", "statement": "In inline macros, between two consecutive output tokens L R a space is written iff L ends and R starts a compound as documented, regardless of position, and all tokens are kept in order.", "quantifier": "all token sequences", "why_tests_cant": "The spacing iterator is a five-state machine over arbitrary streams.", "anchors": ["packages/stylist-macros/src/spacing_iterator.rs", "packages/stylist-macros/src/inline/parse/mod.rs: fragment_spacing"]}
{"id": "C43", "title": "Inline declarations keep their order and grouping", "statement": "Converting a parsed inline stylesheet to output keeps every declaration, block and at-rule exactly once and in order, with maximal runs of dangling declarations grouped into one block.", "quantifier": "all inline syntax trees", "why_tests_cant": "All trees.", "anchors": ["packages/stylist-macros/src/inline/parse/root.rs", "packages/stylist-macros/src/inline/parse/scope.rs", "packages/stylist-macros/src/inline/parse/block.rs"]}
{"id": "C44", "title": "Invalid inline input is a compile error, never partial output", "statement": "If any part of the inline input is rejected (invalid selector token, invalid attribute token, unsupported at-rule, nested block), the macro emits compile errors and no stylesheet content.", "quantifier": "all token streams", "why_tests_cant": "All token streams.", "anchors": ["packages/stylist-macros/src/inline/mod.rs", "packages/stylist-macros/src/inline/parse/mod.rs", "packages/stylist-macros/src/inline/component_value/mod.rs"]}
{"id": "C45", "title": "Inline selectors are split at top-level commas", "statement": "An inline selector list is split exactly at its top-level commas.", "quantifier": "all component-value lists", "why_tests_cant": "All lists.", "anchors": ["packages/stylist-macros/src/inline/parse/qualifier.rs: into_output"]}
{"id": "C46", "title": "The inline macro never panics", "statement": "The inline macro never reaches its unreachable! branches.", "quantifier": "all token streams", "why_tests_cant": "All token streams.", "anchors": ["packages/stylist-macros/src/inline/component_value/mod.rs: to_output_fragments", "packages/stylist-macros/src/output/str_frag.rs"]}
{"id": "C47", "title": "Global component lifecycle", "statement": "In a client that loads no style data: while at least one mounted <Global> component carries some CSS for a manager that mounts into the document under a selector-safe prefix, the document contains a global style element with that CSS. A component carries the CSS of its latest rendering, for the manager of its context, until it is unmounted. If user code creates no global styles of its own, every style element is the page's, a scoped style's, or has the CSS a mounted component carries, so once all have been unmounted or changed nothing of it remains.", "quantifier": "all sequences of mounting, updating and unmounting Global components", "why_tests_cant": "All schedules of components sharing a registry.", "anchors": ["packages/stylist/src/yew/global.rs", "packages/stylist/src/manager/*.rs"]}
{"id": "C48", "title": "Media query hook reports the current query", "statement": "After effects have run, use_media_query(q) (resp. use_prepared_media_query) returns whether q currently matches, for the query of the latest render.", "quantifier": "all sequences of renders with changing queries and media changes", "why_tests_cant": "All schedules.", "anchors": ["packages/stylist/src/yew/hooks/use_media_query.rs"]}
{"id": "C49", "title": "A StyleSource is realised in its own manager", "statement": "Turning a StyleSource into classes registers it in the manager attached to it, else in the default manager, and yields the class name of the registered style and the location; while the manager lives and user code unregisters nothing, an equal source yields the same classes again, whatever components are mounted and unmounted in between. css! in a styled component attaches the manager of the context; use_style registers in the manager of the context.", "quantifier": "all sources, all manager states", "why_tests_cant": "All states.", "anchors": ["packages/stylist/src/style_src.rs", "packages/stylist/src/yew/mod.rs", "packages/stylist-macros/src/styled_component_impl.rs"]}
{"id": "C50", "title": "Static markup lists every recorded style once", "statement": "write_static_markup writes, for each record in order, one <style data-style=\"id\"> element whose text is the escaped style text.", "quantifier": "all style data", "why_tests_cant": "All lists.", "anchors": ["packages/stylist/src/manager/ssr.rs: write_static_markup"]}
{"id": "C51", "title": "Class names never collide after hydration", "statement": "A style created on the client after loading the server's style data never gets the class name of a different style.", "quantifier": "all server and client histories, all style data loaded", "why_tests_cant": "Relates the id sources of two processes over all histories.", "anchors": ["packages/stylist/src/manager/mod.rs: load_style_data", "packages/stylist/src/utils.rs: get_next_style_id, get_entropy", "packages/stylist/src/manager/key.rs"]}
{"id": "C52", "title": "Dropped styles leave the container they were mounted in", "statement": "When the last reference to a style goes away, its style element is removed from the container it was mounted in, whatever that container (document head, detached element, shadow root) and whatever the class prefix.", "quantifier": "all containers, all prefixes, all histories", "why_tests_cant": "Depends on where a container is and on every character of the prefix.", "anchors": ["packages/stylist/src/manager/mod.rs: unmount, mount", "packages/stylist/src/manager/mod.rs: StyleManagerBuilder container, prefix"]}
{"id": "C53", "title": "Received style data writes the same markup", "statement": "Style data that was serialized and deserialized writes the same static markup as the original.", "quantifier": "all style data", "why_tests_cant": "All lists of records.", "anchors": ["packages/stylist/src/manager/mod.rs: StyleDataContent (serde skip)", "packages/stylist/src/manager/ssr.rs: write_static_markup"]}
{"id": "C54", "title": "Inline values next to each other stay apart", "statement": "Values that stand next to each other in an inline stylesheet are still separate values in the CSS written: an expression, identifier, literal or function is not glued to its neighbour.", "quantifier": "all component-value lists, all values of expressions", "why_tests_cant": "All neighbours in all positions and every run-time text.", "anchors": ["packages/stylist-macros/src/spacing_iterator.rs", "packages/stylist-macros/src/inline/component_value/mod.rs"]}
{"id": "C55", "title": "Inline macros accept every selector", "statement": "A rule whose selector starts with an element and a pseudo class is accepted by the inline macro as it is by the string form.", "quantifier": "all selectors and bodies", "why_tests_cant": "All token streams.", "anchors": ["packages/stylist-macros/src/inline/parse/scope_content.rs", "packages/stylist-macros/src/inline/parse/attribute.rs"]}
{"id": "C56", "title": "One copy of a Global's CSS", "statement": "While any number of mounted <Global> components carry the same CSS for the same manager, the document has exactly one style element with it.", "quantifier": "all sequences of mounting, updating and unmounting Global components", "why_tests_cant": "All schedules of components sharing a registry.", "anchors": ["packages/stylist/src/yew/global.rs: GlobalStyleGuard::drop", "packages/stylist/src/manager/content.rs: unregister"]}
{"id": "C57", "title": "A source handed to Global keeps its manager", "statement": "A StyleSource with a manager attached to it is registered in that manager by <Global> (and use_style), as it is when turned into classes.", "quantifier": "all sources and contexts", "why_tests_cant": "All combinations of attached and provided managers.", "anchors": ["packages/stylist/src/yew/global.rs", "packages/stylist/src/yew/hooks/use_style.rs", "packages/stylist/src/style_src.rs"]}
{"id": "C58", "title": "Server rendered Globals can be hydrated", "statement": "If a page is rendered on the server with <Global> components, the client can load the collected style data without a panic, however many of the components have the same CSS.", "quantifier": "all server renderings with Global components", "why_tests_cant": "Needs the life cycle of server components and two processes.", "anchors": ["packages/stylist/src/yew/global.rs", "packages/stylist/src/manager/mod.rs: load_style_data"]}
{"id": "C59", "title": "A class handed out has its style in the document", "statement": "After a StyleSource is turned into classes in a browser, the document contains the style of that class.", "quantifier": "all sources and managers", "why_tests_cant": "All ownership situations of the manager.", "anchors": ["packages/stylist/src/yew/mod.rs", "packages/stylist/src/style_src.rs: into_style", "packages/stylist/src/manager/mod.rs"]}
{"id": "C60", "title": "Creating a style succeeds", "statement": "With managers that append (or record in static mode) and containers that take elements, creating a style never returns an error and never panics; in debug builds this needs that the generated CSS can be parsed again. In general, creating succeeds exactly if the style is registered already, or the CSS passes that check and the manager has a place to put it.", "quantifier": "all programs, pages and styles", "why_tests_cant": "All histories of managers, styles and page edits before the call.", "anchors": ["packages/stylist/src/manager/mod.rs: get_or_register_style, mount, build", "packages/stylist/src/style.rs", "packages/stylist/src/global_style.rs"]}
{"id": "C61", "title": "Components never panic", "statement": "In an application whose managers are set up soundly, mounting, updating and unmounting <Global>, turning sources into classes and use_style never panic, in whatever order they happen.", "quantifier": "all programs of components and user code", "why_tests_cant": "All interleavings of component life cycles with user code.", "anchors": ["packages/stylist/src/yew/global.rs", "packages/stylist/src/yew/mod.rs", "packages/stylist/src/yew/hooks/use_style.rs", "packages/stylist/src/style_src.rs", "packages/stylist/src/manager/mod.rs: StyleManager::default"]}
{"id": "C62", "title": "Hydrated components get the classes of the server", "statement": "A component rendered below a ManagerProvider on the server with some CSS gets a class; when the provider is hydrated with the state the server handed over, a component with the same CSS below it gets that very class, whatever has been rendered in between, through use_style as well as through css! in a styled_component, as long as no style is unregistered by hand.", "quantifier": "all server programs, all client programs before and after hydration, all sheets and prefixes", "why_tests_cant": "Two unbounded histories, on two machines, have to agree.", "anchors": ["packages/stylist/src/yew/provider.rs: ManagerProvider", "packages/stylist/src/manager/mod.rs: load_style_data", "packages/stylist/src/manager/ssr.rs: style_data", "packages/stylist/src/yew/hooks/use_style.rs"]}
{"id": "C63", "title": "The server's style elements stay while hydrated components may use them", "statement": "If the page holds each style of the handed-over state in exactly one element, then after hydration each scoped one is in exactly one element, with the text the server wrote, at all times while the manager of the provider lives; hydrated components do not add a copy.", "quantifier": "all pages, states and programs", "why_tests_cant": "All histories of creating and dropping styles after hydration.", "anchors": ["packages/stylist/src/yew/provider.rs: ManagerProvider", "packages/stylist/src/manager/registry.rs", "packages/stylist/src/manager/content.rs: Drop for StyleContent", "packages/stylist/src/manager/mod.rs: load_style_data"]}
{"id": "C64", "title": "A provider may change its manager", "statement": "When a hydrated ManagerProvider is rendered again, with the same manager or with another, the classes its components get still have their styles in the page.", "quantifier": "all re-renderings of a provider", "why_tests_cant": "Depends on when the old manager is dropped, on what it owned and on the order of yew's memo.", "anchors": ["packages/stylist/src/yew/provider.rs: ManagerProvider", "packages/stylist/src/manager/mod.rs", "packages/stylist/src/manager/content.rs: Drop for StyleContent"]}
{"id": "C65", "title": "Providers give back what they take", "statement": "Mounting a ManagerProvider changes no style element and takes two owners of its manager; unmounting it gives both back. While the program still owns the manager, unmounting changes no style, no registration and no element.", "quantifier": "all programs before, while and after a provider is mounted", "why_tests_cant": "Reference counts over all histories.", "anchors": ["packages/stylist/src/yew/provider.rs: ManagerProvider", "packages/stylist/src/manager/mod.rs: StyleManager"]}
{"id": "C66", "title": "Creating a style from CSS text does what was asked, or leaves nothing", "statement": "Style::new/create/new_with_manager/create_with_manager and the GlobalStyle ones return a style whose CSS is the sheet the given text says, in the given manager (or the default one), with the given prefix (or the manager's); its element is in that manager's container. If the text is not CSS they return a parse error, and no style, element, registration or class name is left of the attempt. If the text is CSS and the manager can take styles they succeed.", "quantifier": "all programs before the call, all texts and sheets, all managers", "why_tests_cant": "All histories of managers, styles, the parser cache and components before the call.", "anchors": ["packages/stylist/src/style.rs: create_impl, create_with_manager, new_with_manager, create, new", "packages/stylist/src/global_style.rs", "packages/stylist/src/style_src.rs: IntoSheet", "packages/stylist-core/src/ast/sheet.rs: from_str"]}
{"id": "C67", "title": "Texts that say the same CSS are the same style", "statement": "Creating a scoped style with a text, a sheet or another text that parses to the same sheet gives the very same class name and element as before, as long as the manager lives and nothing is unregistered by hand, whatever is created or dropped in between; no class name is used up and no element is added.", "quantifier": "all pairs of calls with the same sheet, prefix and manager, and all programs between them", "why_tests_cant": "All histories between the two calls.", "anchors": ["packages/stylist/src/style.rs", "packages/stylist/src/manager/registry.rs", "packages/stylist/src/manager/mod.rs: get_or_register_style"]}
{"id": "C68", "title": "Constructors give back what they take", "statement": "A constructor of Style or GlobalStyle leaves no owner of a manager behind: the managers handed over are dropped, all others keep their owners (but for the default one, made at the first use), no component's state changes, and a new style handle exists exactly if a style was returned.", "quantifier": "all programs and calls, successful or not", "why_tests_cant": "Reference counts over all histories and error paths.", "anchors": ["packages/stylist/src/style.rs", "packages/stylist/src/global_style.rs", "packages/stylist/src/manager/mod.rs: StyleManager::default"]}
{"id": "C69", "title": "The default manager is as documented and stays", "statement": "The default manager appends to the document's head, uses the prefix stylist and keeps no static data; once made, a thread has it for good, under the same handle.", "quantifier": "all programs", "why_tests_cant": "All histories.", "anchors": ["packages/stylist/src/manager/mod.rs: StyleManager::default, StyleManagerBuilder"]}
{"id": "C70", "title": "CSS written as text or in a macro takes effect in the page as written", "statement": "In a browser, after Style::new, create or GlobalStyle::new of a text of the documented grammar, of a literal macro or of an inline macro, the page has exactly one style element for it, and a CSS reader that looks at it finds the declarations that were written, with the values the embedded expressions have at that time, in order, scoped to the returned class (or global).", "quantifier": "all programs before the call, all texts of the grammar, all macro inputs, all values, each evaluation of a macro", "why_tests_cant": "From source text to document, through macro, parser, registry and renderer, for all inputs and histories.", "anchors": ["packages/stylist/src/style.rs", "packages/stylist/src/global_style.rs", "packages/stylist-core/src/parser.rs", "packages/stylist-core/src/ast/to_style_str.rs", "packages/stylist-macros/src/literal/mod.rs", "packages/stylist-macros/src/inline/mod.rs", "packages/stylist/src/manager/registry.rs"]}
{"id": "C71", "title": "A class name stays valid while its manager lives", "statement": "A class name taken from a scoped style refers to the same CSS in the page for as long as the style's manager lives and nothing is unregistered by hand, even when every handle of the style is gone; for the default manager that is for good.", "quantifier": "all programs before and after the style is created", "why_tests_cant": "All histories after the class name was taken.", "anchors": ["packages/stylist/src/style.rs: get_class_name, unregister", "packages/stylist/src/manager/mod.rs", "packages/stylist/src/manager/registry.rs", "packages/stylist/src/yew/mod.rs: From<Style> for Classes"]}
{"id": "C72", "title": "One class name, one CSS", "statement": "If two calls of constructors, at any two times, return styles with the same class name (or id), they asked for the same CSS, the same prefix and the same kind (scoped or global), in the same manager.", "quantifier": "all pairs of calls and all programs before and between them", "why_tests_cant": "All histories between the two calls.", "anchors": ["packages/stylist/src/style.rs", "packages/stylist/src/manager/registry.rs", "packages/stylist/src/utils.rs: get_entropy"]}
{"id": "C73", "title": "A macro run again with the same values gives the same class", "statement": "style! run again with expressions that display the same (a component rendered again) returns the same class, adds no element and uses up no class name, whatever was created or dropped in between, unless the style was unregistered by hand.", "quantifier": "all macro expansions, all values, all programs between the two evaluations", "why_tests_cant": "All inputs of the macro and all histories between two evaluations.", "anchors": ["packages/stylist-macros/src/output/sheet.rs", "packages/stylist-macros/src/output/str_frag.rs", "packages/stylist/src/style.rs", "packages/stylist/src/manager/registry.rs"]}
{"id": "C74", "title": "A page rendered on the server keeps its styles and classes after hydration, end to end", "statement": "A component below a ManagerProvider is rendered on the server; the static style markup is written into the page; the client hydrates the page with the style state the provider sent. Then the page, when it loads and at any later moment, says for the class the server printed exactly the declarations of the component's CSS; and the component rendered on the client, through use_style or css!, gets the class the server printed. The hydration itself does not panic if the server mounted no Global again after it was gone.", "quantifier": "all server programs and client programs before and after the component, all CSS, prefixes, random class names and managers", "why_tests_cant": "All histories of both programs and all class names, across two processes.", "anchors": ["packages/stylist/src/yew/provider.rs", "packages/stylist/src/manager/ssr.rs", "packages/stylist/src/manager/registry.rs", "packages/stylist/src/yew/hooks/use_style.rs"]}
{"id": "C75", "title": "css! in a styled component gives the classes of its CSS in the manager of the context", "statement": "In a function with the attribute styled_component, each css! that is made into classes gives the class name of the style with this CSS in the manager of the context the component is rendered in (the default one if there is none), with the location after it if there is one, whatever else the function does. The same CSS gets the same classes in every rendering and in every component below the same manager, as long as the manager lives and nothing is unregistered by hand; and the same class name is never given for two different pieces of CSS.", "quantifier": "all programs before, between and after, all functions (any mixture of css!, other calls and sources handed on), all sheets and managers", "why_tests_cant": "All histories of renderings, and all interleavings of css! with other code in the function.", "anchors": ["packages/stylist-macros/src/styled_component_impl.rs", "packages/stylist-macros/src/css.rs", "packages/stylist/src/style_src.rs", "packages/stylist/src/yew/mod.rs"]}
{"id": "C76", "title": "A rendering of a styled component gives back what it takes", "statement": "The manager that the attribute takes from the context and the clones css! attaches are dropped when the function returns: every owner of a manager from before still is one, and new owners are only the sources the function hands on and, the first time, the default manager. No handle of a style is left. If the styles are already there, rendering writes nothing to the document, removes nothing and uses up no class name. A function that only uses css! never panics if its manager can mount styles.", "quantifier": "all programs before, all functions that only use css! and its sources, in any order, all contexts", "why_tests_cant": "All sequences of css! and uses of its sources, in every state of the program.", "anchors": ["packages/stylist-macros/src/styled_component_impl.rs", "packages/stylist/src/style_src.rs", "packages/stylist/src/manager/mod.rs"]}
{"id": "C77", "title": "The page says for the classes of a styled component what its css! says", "statement": "From the rendering on, as long as the manager lives and nothing is unregistered by hand, the page has one style element for each class a styled component got, and it says exactly what the CSS given to css! says, scoped to the class: the text of the literal with the placeholders replaced by the values the arguments had in this rendering, or the CSS written inline with the values of its expressions.", "quantifier": "all programs before and after, all functions, literals, arguments, inline inputs and values, all managers that mount into the document", "why_tests_cant": "All histories, all macro inputs and all values at run time.", "anchors": ["packages/stylist-macros/src/sheet.rs", "packages/stylist-macros/src/styled_component_impl.rs", "packages/stylist-macros/src/css.rs", "packages/stylist/src/yew/mod.rs"]}
{"id": "C78", "title": "An application rendered on the server hydrates to the same classes, in every order", "statement": "An application is a tree of ManagerProviders and styled components, nested in any way. The server, in whatever order it renders siblings, does not panic and can always finish; at any time the style data read from each manager has the text of every style whose class a component below its providers got. When the browser hydrates the page with the states the providers sent, in any order of its own, and with managers of the same prefixes that were not used before, no provider and no component panics, every component gets exactly the classes the server printed for it, no element is added to the document or removed from it and no class name is drawn, and it can always finish.", "quantifier": "all trees of providers and components, all sheets, all schedules on the server and in the browser, all programs before on both sides, all managers and random class names", "why_tests_cant": "All trees and all interleavings in two processes.", "anchors": ["packages/stylist/src/yew/provider.rs", "packages/stylist-macros/src/styled_component_impl.rs", "packages/stylist/src/manager/mod.rs", "packages/stylist/src/manager/ssr.rs", "packages/stylist/src/manager/registry.rs"]}
{"id": "C79", "title": "CSS given to Global and use_style as text, sheet or macro takes effect, and only text that does not parse panics", "statement": "<Global css={..} /> and use_style(..) accept CSS as a string, a Sheet or a StyleSource. From the moment a Global is rendered until it is rendered again or unmounted, whatever else the program does (other components, hooks, styles unregistered by hand), the document has an element, under an id that is not the page's, that says exactly what the CSS says; the class that class={style} yields for a style of use_style, made at any later time, is the class of an element that says what the CSS says, scoped to it, for as long as the manager of the context lives and nothing is unregistered by hand. If the manager can put styles somewhere, rendering panics exactly if the CSS is text that does not parse.", "quantifier": "all programs before, between and after, all texts, macro inputs and values, all managers of the context that mount into the document", "why_tests_cant": "All histories and all CSS.", "anchors": ["packages/stylist/src/yew/mod.rs", "packages/stylist/src/yew/global.rs", "packages/stylist/src/yew/hooks/use_style.rs", "packages/stylist/src/style_src.rs", "packages/stylist/src/global_style.rs", "packages/stylist/src/style.rs"]}
{"id": "C80", "title": "Over its whole life an application has the classes of its managers, nothing is unstyled, nothing panics, and nothing is kept", "statement": "An application in the browser, hydrated or rendered from nothing, whose components and providers are mounted, rendered again with the same or other properties, and destroyed, and whose providers get other managers, in any order and mixed with other code that unregisters nothing: a component rendered since its provider last changed its manager has the classes of its CSS in that manager (without a provider, in the default one), and any other one still has classes that the page styles; two such components with the same CSS and the same manager have the same classes, also at different times, and those are the ones the server has sent, if there was one; in managers that mount into the page, the page says what the CSS of every component says, at every moment; if styles can be mounted and read back, only other code can panic, and all that waits can be rendered; rendering again when nothing waits makes no style, draws no random number and changes no class; the application owns two manager handles per mounted provider (and the default manager) and nothing else, so when all is destroyed what it owned is given back.", "quantifier": "all trees, all sequences of events at all nodes, all programs around them", "why_tests_cant": "All histories of an application, all interleavings with other code.", "anchors": ["packages/stylist/src/yew/provider.rs", "packages/stylist-macros/src/styled_component_impl.rs", "packages/stylist/src/manager/mod.rs", "packages/stylist/src/style.rs"]}
{"id": "C81", "title": "A macro call without interpolation builds its sheet once and allocates nothing", "statement": "A css!, style! or global_style! call in which no value is interpolated builds its sheet at most once in the whole program: every evaluation gives that one sheet, all of whose texts, lists, rules and blocks are borrowed from the program's constants. A call with a string literal that compiles is of this kind exactly if it has no arguments, and one with CSS in Rust tokens exactly if the sheet it spells does not depend on any value. Calls that do interpolate are never cached (C39).", "quantifier": "all sheets a macro can build, all calls with a string literal, any number of evaluations with any values", "why_tests_cant": "All inputs and all histories of evaluations; the generated code depends on every part of the sheet.", "anchors": ["packages/stylist-macros/src/output/maybe_static.rs", "packages/stylist-macros/src/output/context.rs", "packages/stylist-macros/src/output/sheet.rs", "packages/stylist-macros/src/literal/mod.rs"]}
{"id": "C82", "title": "The class name only fills gaps in the text of a style", "statement": "The CSS text of a scoped style depends on its class name only in that the class selector is written into it: the text under another class name is the text with every occurrence of the first class selector replaced by the second, provided that the style sheet itself mentions neither. So the same CSS in two managers, with other prefixes or numbers, on the server or in the browser, is the same text but for the class.", "quantifier": "all sheets, all pairs of class names that are identifiers and not mentioned by the sheet, all styles of all programs", "why_tests_cant": "All sheets and all class names; the layout depends on comparing texts that contain the class.", "anchors": ["packages/stylist-core/src/ast/context.rs", "packages/stylist-core/src/ast/selector.rs", "packages/stylist-core/src/ast/block.rs", "packages/stylist/src/style.rs"]}
{"id": "C83", "title": "The items of a style sheet are written independently of each other", "statement": "The text of a sheet is the text of its items at the top level, one after the other: putting items before, behind or between others neither changes nor splits nor merges the text of the others, with a class and without.", "quantifier": "all sheets, all class names", "why_tests_cant": "All combinations of items: the writer keeps open blocks between items, and one left open would change all that follows.", "anchors": ["packages/stylist-core/src/ast/context.rs", "packages/stylist-core/src/ast/sheet.rs", "packages/stylist-core/src/ast/block.rs", "packages/stylist-core/src/ast/rule.rs"]}
{"id": "C84", "title": "CSS texts can be put after each other", "statement": "Parsing one well-formed CSS text followed by another gives the items of the first and then those of the second; only declarations outside braces that come to stand next to each other become one group. All declarations of both apply where they did, in this order, and after a text that ends with a brace the style is the text of the one style and then that of the other. The exception is a text that ends with declarations outside braces before one that begins with a selector that starts like a declaration, such as a:hover (C14).", "quantifier": "all pairs of texts of the grammar, in any layout, all class names", "why_tests_cant": "All pairs of texts: the parser tries alternatives that read ahead, so what follows could change how a text is read.", "anchors": ["packages/stylist-core/src/parser.rs", "packages/stylist-core/src/ast/sheet.rs", "packages/stylist-core/src/ast/context.rs"]}
{"id": "C85", "title": "The attribute of a styled component leaves the function's code alone", "statement": "#[styled_component] and #[styled_component_impl] accept a function, the former with nothing or one name in its parentheses, the latter with nothing, and everything else is a compile error. The function keeps its attributes, visibility and signature. Inside of it every variable refers to what it did without the attribute, also one with the name that the attribute uses for the manager, and every css! that is not the function's own macro uses the manager taken from the context at the begin of the function, in every nested block and macro.", "quantifier": "all functions, bodies, parameter and variable names, all tokens in the parentheses", "why_tests_cant": "All bodies and all names.", "anchors": ["packages/stylist-macros/src/styled_component.rs", "packages/stylist-macros/src/styled_component_impl.rs", "packages/stylist-macros/src/lib.rs"]}
{"id": "C86", "title": "Threads do not disturb each other", "statement": "Whatever several threads of a process do and however they are interleaved, every `Sheet::from_str` returns what parsing its text alone gives, every macro call returns its sheet, the class-name entropies that the threads draw are together the first values of the counter, each given to exactly one call (so they are different until the 64-bit counter wraps), no text that is CSS is parsed twice and no sheet of a macro is built twice. The threads cannot block each other for ever: as long as one has a call to finish, some thread can go on, and all are done after a number of rounds that depends on the calls only.", "quantifier": "all numbers of threads, all sequences of calls in each, all interleavings at the accesses to shared state", "why_tests_cant": "A test runs a few interleavings, chosen by the scheduler of the machine.", "anchors": ["packages/stylist-core/src/ast/sheet.rs: CACHED_SHEETS, Sheet::from_str", "packages/stylist/src/utils.rs: get_next_style_id", "packages/stylist-macros/src/output/sheet.rs: SHEET_REF"]}
{"id": "C87", "title": "The error of a text that is no CSS says where reading stopped", "statement": "If `Sheet::from_str` rejects a text, the first entry of the error's source is a rest of the text such that what comes before it is CSS, and what comes after starts neither with white space nor with anything that can be read: by itself it is rejected at its very beginning. The reason names the line of this place, shows this line and a caret below it (placed by bytes, so it is below the place if the line is ASCII before it), and then twice the first line of the text. `unwrap_display` and `expect_display` give the sheet or panic with exactly this message.", "quantifier": "all texts", "why_tests_cant": "A test looks at the errors of a few texts.", "anchors": ["packages/stylist-core/src/parser.rs: Parser::parse, traced_context, expect_non_empty", "packages/stylist-core/src/error.rs: Error, ResultDisplay"]}
{"id": "C88", "title": "Reading CSS takes work at most quadratic in the text", "statement": "The number of steps `Sheet::from_str` takes (parser calls, and characters looked at by scanning) is at most a constant times the square of the length of the text, also for texts that are rejected and for at-rules nested to any depth: trying one reading after another never makes the time grow exponentially with the nesting. The square is needed: some texts of any length take that much.", "quantifier": "all texts, accepted or not", "why_tests_cant": "A test times a few texts; the text that makes backtracking blow up is the one it does not have.", "anchors": ["packages/stylist-core/src/parser.rs: Parser::parse, sheet, scope, block, rule, condition, interpolation, string, cmt"]}
{"id": "C89", "title": "The CSS of a style is not much bigger than the style", "statement": "The CSS text written for a style (`Style::get_style_str`, `to_style_str`) has at most as many chars as the number of items (declarations, blocks, rules at any depth) times a constant times (the square of the depth of rules in each other, for the indentation, plus the number of chars of all texts times the square of the room of the class name). A sheet read from a text is not bigger than twice the text, so the CSS is at most cubic in the text, and quadratic for a limited depth. Nested sheets reach the cube.", "quantifier": "all sheets, class names and texts", "why_tests_cant": "A test writes a few sheets; conditions written again for every declaration could make the size explode for deeper ones.", "anchors": ["packages/stylist-core/src/ast/context.rs: StyleContext::start, finish, write_padding", "packages/stylist-core/src/ast/selector.rs: write_style", "packages/stylist-core/src/ast/block.rs, rule.rs, style_attr.rs: write_style", "packages/stylist-core/src/parser.rs: Parser::parse"]}
{"id": "C90", "title": "How deep the parser calls itself depends on the nesting of the CSS only", "statement": "Reading CSS (`Style::new` with a string, `StyleSource` from a string, `Sheet::from_str`) nests calls of the parser inside each other no deeper than the rules of the resulting style are nested, plus two; a style without nested rules is read in a constant depth, whatever its length. At least the nesting is needed. A text that is rejected never needs more than its number of opening braces plus two, and some rejected texts do need one level for every opening brace. A limit on the depth that is not reached does not change the result.", "quantifier": "all texts and all limits on the depth of calls", "why_tests_cant": "A test reads some texts and cannot tell how much of the stack a longer or deeper one takes: overflowing the stack aborts the program.", "anchors": ["packages/stylist-core/src/parser.rs: Parser::scope_contents, at_rule, block, keyframes, rule_block, rule_block_contents, sheet, parse"]}
{"id": "C91", "title": "The styles collected on a server can be read from any thread at any time", "statement": "`StaticReader::read_style_data` called in one thread while another thread creates styles with the managers of the writers returns the data as they are between two calls of that thread: they contain the style of every call that had returned before the read, none of a call that had not begun when the read returned, and are the beginning of what is collected in the end; a style is never there in part. The creating thread gets the same results as without readers. Panics in creations never make a reader get empty data. Neither side deadlocks, and all calls return in a bounded number of turns.", "quantifier": "all programs of manager calls, all sets of readers, all interleavings", "why_tests_cant": "A test runs a few interleavings of two threads, chosen by the scheduler.", "anchors": ["packages/stylist/src/manager/ssr.rs: StaticReader::read_style_data, render_static, StaticWriter", "packages/stylist/src/manager/mod.rs: StyleManager::get_or_register_style, style_data", "packages/stylist/src/manager/registry.rs: StyleRegistry::register", "packages/stylist/src/yew/provider.rs"]}
{"id": "C92", "title": "The class handed out is one class, and the CSS of the style selects it", "statement": "An element whose class attribute lists the class name returned by `Style::get_class_name`, among any other classes, is an element that the class selectors in the style's CSS text select, whatever prefix was asked for: read as CSS and HTML say, `.name` is the class selector of that very name, and the name is a single class in the attribute.", "quantifier": "all programs and prefixes, all generated suffixes, all selectors, all other classes of the element", "why_tests_cant": "A test has the default prefix; prefixes that are no CSS names need the rules of CSS and HTML.", "anchors": ["packages/stylist/src/manager/key.rs: StyleId::new_scoped", "packages/stylist/src/utils.rs: get_entropy", "packages/stylist/src/style.rs: Style::create, get_class_name", "packages/stylist-core/src/ast/selector.rs"]}
{"id": "C93", "title": "Values of declarations end where CSS ends them", "statement": "The value of a declaration given as text to `Style::new`, `Sheet::from_str` or the macros is read as CSS reads it: strings in single or double quotes, `url(..)` without quotes and blocks in brackets belong to it as a whole, and the next declaration begins after the first semicolon outside of them.", "quantifier": "all property names and all values", "why_tests_cant": "The values are infinitely many, and one char inside a string or an address decides.", "anchors": ["packages/stylist-core/src/parser.rs: Parser::style_attr_value, string, attribute, attributes"]}
{"id": "C94", "title": "At-rules are read however CSS lets them be written, or are errors", "statement": "A style text that starts with an at-rule of a supported kind (@media, @supports, @container, @keyframes) is read whatever white space CSS allows between the name and the condition. A text that starts with any other at-rule is an error: it is never dropped, nor taken for a selector.", "quantifier": "all texts after the @, all conditions, contents and white space", "why_tests_cant": "The texts are infinitely many.", "anchors": ["packages/stylist-core/src/parser.rs: Parser::at_rule_condition, at_rule, keyframes, scope_contents, selector"]}
{"id": "C95", "title": "Selectors are read as they are written", "statement": "The selector of a block given as text is read as one selector with exactly its text, whatever selector CSS allows: strings in either quotes, escaped chars, and lists in parentheses belong to it as a whole.", "quantifier": "all selectors", "why_tests_cant": "The selectors are infinitely many, and one char inside a string or after a backslash decides.", "anchors": ["packages/stylist-core/src/parser.rs: Parser::selector, condition, string, block"]}
{"id": "C96", "title": "The animations of a style are its own", "statement": "If the CSS of a style defines an animation with @keyframes, all its frames are written as one rule, and an element with the class of the style moves as this CSS says, whatever other styles are created: the name of the animation is the style's own, as its class is.", "quantifier": "all CSS, all programs and all later histories", "why_tests_cant": "It is about any two styles of a program and about every order in which they are created.", "anchors": ["packages/stylist-core/src/ast/rule.rs: Rule::write_style", "packages/stylist-core/src/ast/context.rs: StyleContext::start, finish, close_until_common_parent", "packages/stylist/src/manager/mod.rs: StyleManager::mount"]}
{"id": "C97", "title": "A scoped style selects nothing where no element has its class", "statement": "Whatever the selectors of a scoped style, they select an element only if some element has the class of the style: itself or one its combinators reach. So a style never changes a page in which its class is not used.", "quantifier": "all class names, all selectors and all styles", "why_tests_cant": "One char inside of parentheses, brackets or a string decides, and selectors are infinitely many.", "anchors": ["packages/stylist-core/src/ast/selector.rs: Selector::write_style", "packages/stylist-core/src/ast/block.rs: Block::cond_str"]}
{"id": "C98", "title": "A scoped style styles its element and what is inside of it", "statement": "Whatever the selectors of a scoped style, they select only elements that have the class of the style and elements inside of these: a style does not reach parents, siblings or other parts of the page.", "quantifier": "all class names, all selectors, all styles and all pages", "why_tests_cant": "Selectors and pages are infinitely many; one combinator after the class decides.", "anchors": ["packages/stylist-core/src/ast/selector.rs: Selector::write_style", "packages/stylist-core/src/ast/block.rs: Block::cond_str"]}
{"id": "C99", "title": "The selectors of a scoped style say of the elements with its class what they say of &", "statement": "In every page, the CSS that is written for a selector of a scoped style selects what the selector selects if & stands for the elements that have the class, where :root is another way to write &, a selector without either is about what is inside of & and one that starts with a colon is about & itself. A style has one such declaration for each one that is written, in order and in the same at-rules.", "quantifier": "all class names, all selectors and lists of them, all styles and all pages", "why_tests_cant": "Selectors and pages are infinitely many, and the class replaces a marker wherever it is written, next to any other text.", "anchors": ["packages/stylist-core/src/ast/selector.rs: Selector::write_style", "packages/stylist-core/src/ast/block.rs: Block::cond_str"]}
{"id": "C100", "title": "A list of selectors selects what one of its selectors selects", "statement": "In every page, the declarations of a block with several selectors apply to an element exactly if what is written for one of the selectors selects it, in scoped and in global styles: putting the class into each of them changes nothing about the others.", "quantifier": "all class names, all lists of selectors and all pages", "why_tests_cant": "Lists, selectors and pages are infinitely many; a comma in parentheses looks as one between selectors.", "anchors": ["packages/stylist-core/src/ast/block.rs: Block::cond_str", "packages/stylist-core/src/ast/selector.rs: Selector::write_style", "packages/stylist-core/src/parser.rs: Parser::block"]}
