#!/usr/bin/env python3
"""Generates properties.jsonl (single source of the property texts)."""
import json
P = []
def p(id, title, statement, quantifier, why, anchors):
    P.append(dict(id=id, title=title, statement=statement, quantifier=quantifier, why_tests_cant=why, anchors=anchors))

CORE="packages/stylist-core/src/"
ST="packages/stylist/src/"
MA="packages/stylist-macros/src/"

p("C01","Rendered CSS contains every declaration exactly once, in order, under its own conditions",
  "Reading the text returned by to_style_str(class) as CSS yields exactly the declarations of the sheet, in document order, none lost, none duplicated, none invented, each nested under exactly the at-rule conditions that enclose it in the sheet (outermost first) followed by the innermost selector that applies to it.",
  "all sheets (any depth, any nesting of blocks and at-rules, including shapes only the AST API can build) whose fragments are lexically closed, and all class names",
  "The writer keeps open/closed flags on a chain of contexts and reopens conditions lazily; only an induction over every nesting shows that no shape mis-nests or loses a declaration.",
  [CORE+"ast/context.rs: StyleContext::{start,finish,close_until_common_parent,with_block_condition,with_rule_condition}", CORE+"ast/block.rs", CORE+"ast/rule.rs", CORE+"ast/style_attr.rs", CORE+"ast/sheet.rs"])
p("C02","Rendered CSS is balanced and leaves nothing open",
  "Whatever the sheet, the text written by to_style_str closes every block it opens: scanning the text never sees more `}` than `{` and ends at depth zero, provided the user's fragments contain no braces themselves; and after writing, no context is left open.",
  "all sheets whose fragments are brace-free, all class names",
  "Balance is a global property of arbitrarily deep output.",
  [CORE+"ast/context.rs", CORE+"ast/to_style_str.rs"])
p("C03","Rendered text is canonically laid out",
  "to_style_str produces one line per opened condition, closing brace and declaration, each indented by four spaces per open condition, for arbitrary fragments.",
  "all sheets, all class names, no condition on the fragments",
  "The indentation is recomputed from context comparisons at every line; equality with the canonical layout must be shown for every context history.",
  [CORE+"ast/context.rs: write_padding, write_min_padding", CORE+"ast/style_attr.rs"])
p("C04","Only keyframes are printed when empty",
  "A sheet without any declaration and without any @keyframes rule renders to the empty string; a @keyframes rule is always printed, even without frames.",
  "all sheets without declarations, at any nesting depth; all @keyframes rules",
  "Quantifies over all declaration-free trees.",
  [CORE+"ast/rule.rs: always_print", CORE+"ast/context.rs: start/finish"])
p("C05","A scoped selector mentions its class",
  "With a class name, every selector is rendered so that it mentions `.class`: a selector containing `&` or `:root` has every such occurrence replaced by `.class` and is otherwise unchanged, a selector starting with `:` is glued to `.class`, and any other selector is prefixed by `.class` and a space.",
  "all selectors (any fragments), all class names",
  "Selectors are unbounded strings and the two replacements interact; testing covers a handful of shapes.",
  [CORE+"ast/selector.rs: Selector::write_style"])
p("C06","Global selectors are kept verbatim except for &",
  "Without a class name every `&` becomes `:root` and nothing else changes; dangling declarations are written under `:root`.",
  "all selectors and sheets rendered without a class name",
  "Unbounded strings.",
  [CORE+"ast/selector.rs", CORE+"ast/context.rs: with_block_condition"])
p("C07","Quoted text in selectors is preserved",
  "Text inside a quoted string of a selector (e.g. an attribute value) is rendered unchanged.",
  "all selectors with quoted strings, all class names",
  "Needs every possible quoted content; a single `&` inside quotes decides it.",
  [CORE+"ast/selector.rs"])
p("C08","Dangling declarations apply to the element carrying the class",
  "A declaration outside any block is rendered under `.class` (or `:root` for a global style) and under the at-rules around it, at any at-rule depth.",
  "all sheets and at-rule nestings",
  "Unbounded nesting.",
  [CORE+"ast/context.rs: with_block_condition", ST+"style.rs docs", ST+"global_style.rs docs"])
p("C09","Parsing always terminates with Ok or Err",
  "Sheet::from_str terminates on every string and returns Ok or Err; its repetition combinators never run without consuming input and its recursion depth is bounded by the input length.",
  "all strings (any Unicode content, any length)",
  "Termination for every input cannot be tested.",
  [CORE+"parser.rs: Parser::parse and every nonterminal", CORE+"ast/sheet.rs: from_str"])
p("C10","Nothing is silently ignored by the parser",
  "If Sheet::from_str returns Ok, the parser has consumed the entire input: a trailing fragment it does not understand is an error, never dropped.",
  "all strings",
  "The grammar is built on many0, which stops silently at the first failure; that the outermost loop turns this into an error must hold for every input.",
  [CORE+"parser.rs: sheet, scope, scope_contents, parse"])
p("C11","Well-formed CSS is parsed to what it says, whatever its layout",
  "Every text of the documented syntax (declarations, blocks with selector lists, @media/@supports/@container nesting, @keyframes), written with arbitrary whitespace and comments between tokens, is accepted and yields exactly the sheet it denotes; two texts that differ only in layout yield equal sheets.",
  "all sheets of the documented grammar, all placements of whitespace and comments between tokens",
  "Infinite family of inputs; ordered-choice parsing makes every alternative depend on all earlier ones failing.",
  [CORE+"parser.rs: all nonterminals"])
p("C12","Shape guarantee of parsed sheets",
  "Every sheet returned by the parser is of the supported shape: property names are identifiers, values are single trimmed fragments, selectors are single trimmed fragments, blocks contain only declarations and @media/@supports/@container rules (no nested blocks), at-rules start with one of the four supported names followed by a space, keyframes contain only frames.",
  "all strings accepted by the parser",
  "Universally quantified over inputs.",
  [CORE+"parser.rs: attribute, condition, block, rule_block, at_rule, keyframes"])
p("C13","Generated CSS can be parsed again",
  "For a sheet of the supported shape, the generated CSS is accepted by the library's own parser and denotes the same declarations under the same conditions, so the debug-mode re-parse in style creation does not panic.",
  "all sheets of the supported shape with lexically clean fragments, all clean class names, scoped or global",
  "Composition of two recursive programs over all trees.",
  [ST+"manager/mod.rs: get_or_register_style (debug_parser)", CORE+"parser.rs", CORE+"ast/context.rs"])
p("C14","A declaration before a block stays a declaration",
  "A top-level declaration `key: value;` followed by a block is parsed as that declaration and that block.",
  "all declarations and all following blocks",
  "Depends on the interaction of ordered choice with every possible following selector.",
  [CORE+"parser.rs: dangling_block, attributes, block, selector"])
p("C15","Selector lists are split at top-level commas only",
  "The selectors of a block are exactly the comma-separated members of its selector list; commas inside quotes or inside parentheses do not separate selectors.",
  "all selector lists",
  "Unbounded strings.",
  [CORE+"parser.rs: condition, selector"])
p("C16","Blank space inside empty braces does not matter",
  "An empty at-rule, frame or block is accepted with any whitespace between its braces.",
  "all layouts inside empty braces, all at-rule kinds",
  "Each nonterminal trims differently.",
  [CORE+"parser.rs: rule_block_contents, keyframes, scope_contents, block_contents"])
p("C17","The parse cache is transparent",
  "Whatever strings were parsed before, in whatever order, Sheet::from_str(s) returns what parsing s afresh returns; failures are never cached.",
  "all histories of from_str calls (from any threads; the lock serialises them)",
  "Quantifies over histories.",
  [CORE+"ast/sheet.rs: CACHED_SHEETS, from_str"])
p("C18","Equal styles share one class and one style element",
  "Creating a style whose (global?, prefix, sheet) is registered in a manager returns the registered class name and text and changes neither the registry nor the document.",
  "all reachable manager states and all keys",
  "State-dependent over all histories.",
  [ST+"manager/mod.rs: get_or_register_style", ST+"manager/registry.rs", ST+"style.rs: create_impl", ST+"global_style.rs"])
p("C19","Counter-based class names never collide",
  "Without the `random` feature, two different style creations never yield the same id, whatever the prefixes and whether scoped or global, for fewer than 2^64 creations; with `random`, ids are distinct whenever the drawn suffixes are.",
  "all pairs of creations in a history, all prefixes",
  "Prefixes are arbitrary strings; collision freedom is an injectivity statement over unbounded inputs.",
  [ST+"utils.rs: get_next_style_id, get_entropy", ST+"manager/key.rs: new_scoped, new_global"])
p("C20","Registry consistency",
  "In every reachable state each manager holds at most one style per key, each registered style carries the key it is registered under, and its text is the rendering of its sheet under its own id (scoped) or no class (global).",
  "all histories of create / clone / drop / unregister / manager drop",
  "Invariant over unbounded histories.",
  [ST+"manager/registry.rs", ST+"manager/content.rs", ST+"manager/mod.rs"])
p("C21","A style is in the document exactly while it is alive",
  "In a browser, at every point of every history, the document contains exactly one style element, with the right id and text, for every style that is registered or has a live handle, and none for any other style: an unregistered style disappears exactly when its last clone is dropped.",
  "all histories of operations over any number of managers mounted into the document, with selector-safe ids",
  "Reference counting over all interleavings of clone, drop, unregister and re-creation.",
  [ST+"manager/content.rs: Drop", ST+"manager/mod.rs: mount, unmount", ST+"style.rs: unregister"])
p("C22","Style elements appear in creation order",
  "With the default append mode every newly mounted style element is placed after everything already in its container.",
  "all reachable states",
  "All histories.",
  [ST+"manager/mod.rs: mount"])
p("C23","Prepend mode puts style elements first",
  "With append(false) a newly created style element becomes the first child of the container.",
  "all container contents",
  "Depends on DOM semantics for every container content.",
  [ST+"manager/mod.rs: mount (append == false)"])
p("C24","Failed creation leaves no trace",
  "If creating a style returns an error (no document, no container, DOM error), the registry and the document are unchanged and a later creation is not affected.",
  "all states and all failing creations",
  "All states.",
  [ST+"manager/mod.rs: get_or_register_style, mount"])
p("C25","Managers are isolated",
  "Operations on one manager never change which styles another manager has registered, and never remove or alter style elements of styles owned by another manager.",
  "all histories over any set of managers",
  "All interleavings.",
  [ST+"manager/mod.rs", ST+"manager/registry.rs"])
p("C26","Unregister affects only the style it is called on",
  "style.unregister() makes this style (and only this style) go away once its clones are freed.",
  "all histories",
  "Needs a history with re-creation between two unregister calls.",
  [ST+"manager/content.rs: unregister", ST+"manager/registry.rs: unregister"])
p("C27","Dropping a manager releases its styles",
  "When the last handle of a manager is dropped, styles only it kept alive leave the document, styles with live handles stay until those are dropped, and unregister on such a handle is a no-op.",
  "all histories",
  "All histories with weak references.",
  [ST+"manager/mod.rs: WeakStyleManager", ST+"manager/content.rs"])
p("C28","Hydration reproduces the server's class names",
  "After loading the style data collected by a static-mode server manager (with no unregistration during rendering), creating on the client any style created on the server returns the same class name and mounts no element; loading does not panic on an empty client manager.",
  "all server histories of creations, all keys",
  "Relates two unbounded histories.",
  [ST+"manager/mod.rs: load_style_data", ST+"manager/ssr.rs: render_static, StaticReader, StaticWriter"])
p("C29","A hydrated style has the same text as on the server",
  "get_style_str of a hydrated style equals get_style_str of the server's style.",
  "all styles, scoped and global",
  "Quantifies over all sheets.",
  [ST+"manager/mod.rs: load_style_data"])
p("C30","Static mode records every style once, in order, and never touches the document",
  "With a StaticWriter, each creation of an unregistered key appends exactly one record (key, id, text) and each creation of a registered key none; the document is never modified.",
  "all histories",
  "All histories.",
  [ST+"manager/mod.rs: get_or_register_style (ssr)", ST+"manager/ssr.rs"])
p("C31","Collected style data is a stable snapshot",
  "A StyleData value obtained during rendering is not changed by styles created later.",
  "all histories after the snapshot",
  "Copy-on-write sharing over all later histories.",
  [ST+"manager/ssr.rs: as_vec_mut, read_style_data", ST+"yew/provider.rs"])
p("C32","Style data collected by a server manager can always be loaded",
  "Loading the style data of any server rendering into a fresh client manager does not panic.",
  "all server histories, including unregistration",
  "Needs an unregister/re-create history on the server.",
  [ST+"manager/mod.rs: load_style_data (assert_eq)"])
p("C33","Serialized sheets and style data round-trip",
  "Deserializing a serialized sheet, style key, style id or StyleData gives back an equal value (style text of StyleData is dropped by design), independently of how borrowed or owned the original was, of field order and of whether the format writes the names of fields.",
  "all sheets and style data values",
  "Structural induction over all trees.",
  [CORE+"ast/*.rs derive(Serialize, Deserialize)", CORE+"bow.rs", CORE+"ast/sheet.rs", ST+"manager/key.rs", ST+"manager/mod.rs: StyleData"])
p("C34","Borrowed and boxed AST nodes are indistinguishable",
  "Equality, hashing, cloning, dereferencing and serialization of Bow do not depend on whether the value is borrowed or boxed.",
  "all values, all combinations",
  "Universal statement.",
  [CORE+"bow.rs"])
p("C35","String-literal macros substitute arguments exactly",
  "The sheet built by css!/style!/sheet! from a string literal renders to the same CSS as the parsed literal with every `${name}` replaced by the Display text of its argument and every `$${` replaced by `${`.",
  "all literals accepted by the macro and all argument values",
  "Unbounded literals and values; fragments are split and re-joined.",
  [MA+"literal/to_output_with_args.rs", MA+"literal/fstring.rs", MA+"output/str_frag.rs: fragment_coalesce"])
p("C36","Macro arguments are exactly the placeholders",
  "The string-literal macro compiles only if every placeholder has an argument, every argument is used, and no argument is given twice.",
  "all literals and argument lists",
  "All combinations.",
  [MA+"literal/mod.rs: macro_fn", MA+"literal/to_output_with_args.rs"])
p("C37","Literal text with `{` or `$` in quotes survives the macro",
  "Any literal without placeholders accepted by the runtime parser is accepted by the macro.",
  "all literals",
  "All strings.",
  [MA+"literal/fstring.rs: literal, fragments"])
p("C38","Placeholder scanning round-trips",
  "Writing any sequence of literal pieces and placeholders in the `${name}` / `$${` notation and scanning it gives back that sequence.",
  "all sequences of pieces",
  "Unbounded.",
  [MA+"literal/fstring.rs: Parser::parse"])
p("C39","Interpolated values are never cached",
  "Every evaluation of a macro uses the current values of its interpolated expressions: a sheet with an interpolated part is never placed in a static or const, and whatever is placed in a const or static is independent of local variables, so the generated code is accepted by rustc's const/static rules and each evaluation equals the un-cached one.",
  "all macro inputs and all sequences of environments the expansion is evaluated in",
  "Soundness of an effect analysis over all trees and all evaluation histories.",
  [MA+"output/context.rs", MA+"output/maybe_static.rs", MA+"output/rule_block_content.rs", MA+"output/sheet.rs", MA+"output/cow_str.rs"])
p("C40","Runtime-parsed and macro-parsed text give the same CSS",
  "For the same placeholder-free literal, css!(lit) and parsing the literal at run time render to identical CSS.",
  "all literals accepted by both, all class names",
  "All literals.",
  [MA+"literal/mod.rs", MA+"output/*.rs", CORE+"ast/*.rs"])
p("C41","Runtime-parsed and macro-parsed text are the same style",
  "For the same placeholder-free literal, css!(lit) and parsing the literal at run time give equal sheets, hence one registry entry.",
  "all literals accepted by both",
  "All literals.",
  [MA+"output/str_frag.rs: fragment_coalesce", CORE+"parser.rs: at_rule_condition", ST+"manager/key.rs"])
p("C42","Inline token spacing follows the documented rule",
  "In inline macros, between two consecutive output tokens L R a space is written iff L ends and R starts a compound as documented, regardless of position, and all tokens are kept in order.",
  "all token sequences",
  "The spacing iterator is a five-state machine over arbitrary streams.",
  [MA+"spacing_iterator.rs", MA+"inline/parse/mod.rs: fragment_spacing"])
p("C43","Inline declarations keep their order and grouping",
  "Converting a parsed inline stylesheet to output keeps every declaration, block and at-rule exactly once and in order, with maximal runs of dangling declarations grouped into one block.",
  "all inline syntax trees",
  "All trees.",
  [MA+"inline/parse/root.rs", MA+"inline/parse/scope.rs", MA+"inline/parse/block.rs"])
p("C44","Invalid inline input is a compile error, never partial output",
  "If any part of the inline input is rejected (invalid selector token, invalid attribute token, unsupported at-rule, nested block), the macro emits compile errors and no stylesheet content.",
  "all token streams",
  "All token streams.",
  [MA+"inline/mod.rs", MA+"inline/parse/mod.rs", MA+"inline/component_value/mod.rs"])
p("C45","Inline selectors are split at top-level commas",
  "An inline selector list is split exactly at its top-level commas.",
  "all component-value lists",
  "All lists.",
  [MA+"inline/parse/qualifier.rs: into_output"])
p("C46","The inline macro never panics",
  "The inline macro never reaches its unreachable! branches.",
  "all token streams",
  "All token streams.",
  [MA+"inline/component_value/mod.rs: to_output_fragments", MA+"output/str_frag.rs"])
p("C47","Global component lifecycle",
  "In a client that loads no style data: while at least one mounted <Global> component carries some CSS for a manager that mounts into the document under a selector-safe prefix, the document contains a global style element with that CSS. A component carries the CSS of its latest rendering, for the manager of its context, until it is unmounted. If user code creates no global styles of its own, every style element is the page's, a scoped style's, or has the CSS a mounted component carries, so once all have been unmounted or changed nothing of it remains.",
  "all sequences of mounting, updating and unmounting Global components",
  "All schedules of components sharing a registry.",
  [ST+"yew/global.rs", ST+"manager/*.rs"])
p("C48","Media query hook reports the current query",
  "After effects have run, use_media_query(q) (resp. use_prepared_media_query) returns whether q currently matches, for the query of the latest render.",
  "all sequences of renders with changing queries and media changes",
  "All schedules.",
  [ST+"yew/hooks/use_media_query.rs"])
p("C49","A StyleSource is realised in its own manager",
  "Turning a StyleSource into classes registers it in the manager attached to it, else in the default manager, and yields the class name of the registered style and the location; while the manager lives and user code unregisters nothing, an equal source yields the same classes again, whatever components are mounted and unmounted in between. css! in a styled component attaches the manager of the context; use_style registers in the manager of the context.",
  "all sources, all manager states",
  "All states.",
  [ST+"style_src.rs", ST+"yew/mod.rs", MA+"styled_component_impl.rs"])
p("C50","Static markup lists every recorded style once",
  "write_static_markup writes, for each record in order, one <style data-style=\"id\"> element whose text is the escaped style text.",
  "all style data",
  "All lists.",
  [ST+"manager/ssr.rs: write_static_markup"])
p("C51","Class names never collide after hydration",
  "A style created on the client after loading the server's style data never gets the class name of a different style.",
  "all server and client histories, all style data loaded",
  "Relates the id sources of two processes over all histories.",
  [ST+"manager/mod.rs: load_style_data", ST+"utils.rs: get_next_style_id, get_entropy", ST+"manager/key.rs"])
p("C52","Dropped styles leave the container they were mounted in",
  "When the last reference to a style goes away, its style element is removed from the container it was mounted in, whatever that container (document head, detached element, shadow root) and whatever the class prefix.",
  "all containers, all prefixes, all histories",
  "Depends on where a container is and on every character of the prefix.",
  [ST+"manager/mod.rs: unmount, mount", ST+"manager/mod.rs: StyleManagerBuilder container, prefix"])
p("C53","Received style data writes the same markup",
  "Style data that was serialized and deserialized writes the same static markup as the original.",
  "all style data",
  "All lists of records.",
  [ST+"manager/mod.rs: StyleDataContent (serde skip)", ST+"manager/ssr.rs: write_static_markup"])
p("C54","Inline values next to each other stay apart",
  "Values that stand next to each other in an inline stylesheet are still separate values in the CSS written: an expression, identifier, literal or function is not glued to its neighbour.",
  "all component-value lists, all values of expressions",
  "All neighbours in all positions and every run-time text.",
  [MA+"spacing_iterator.rs", MA+"inline/component_value/mod.rs"])
p("C55","Inline macros accept every selector",
  "A rule whose selector starts with an element and a pseudo class is accepted by the inline macro as it is by the string form.",
  "all selectors and bodies",
  "All token streams.",
  [MA+"inline/parse/scope_content.rs", MA+"inline/parse/attribute.rs"])
p("C56","One copy of a Global's CSS",
  "While any number of mounted <Global> components carry the same CSS for the same manager, the document has exactly one style element with it.",
  "all sequences of mounting, updating and unmounting Global components",
  "All schedules of components sharing a registry.",
  [ST+"yew/global.rs: GlobalStyleGuard::drop", ST+"manager/content.rs: unregister"])
p("C57","A source handed to Global keeps its manager",
  "A StyleSource with a manager attached to it is registered in that manager by <Global> (and use_style), as it is when turned into classes.",
  "all sources and contexts",
  "All combinations of attached and provided managers.",
  [ST+"yew/global.rs", ST+"yew/hooks/use_style.rs", ST+"style_src.rs"])
p("C58","Server rendered Globals can be hydrated",
  "If a page is rendered on the server with <Global> components, the client can load the collected style data without a panic, however many of the components have the same CSS.",
  "all server renderings with Global components",
  "Needs the life cycle of server components and two processes.",
  [ST+"yew/global.rs", ST+"manager/mod.rs: load_style_data"])
p("C59","A class handed out has its style in the document",
  "After a StyleSource is turned into classes in a browser, the document contains the style of that class.",
  "all sources and managers",
  "All ownership situations of the manager.",
  [ST+"yew/mod.rs", ST+"style_src.rs: into_style", ST+"manager/mod.rs"])
p("C60","Creating a style succeeds",
  "With managers that append (or record in static mode) and containers that take elements, creating a style never returns an error and never panics; in debug builds this needs that the generated CSS can be parsed again. In general, creating succeeds exactly if the style is registered already, or the CSS passes that check and the manager has a place to put it.",
  "all programs, pages and styles",
  "All histories of managers, styles and page edits before the call.",
  [ST+"manager/mod.rs: get_or_register_style, mount, build", ST+"style.rs", ST+"global_style.rs"])
p("C61","Components never panic",
  "In an application whose managers are set up soundly, mounting, updating and unmounting <Global>, turning sources into classes and use_style never panic, in whatever order they happen.",
  "all programs of components and user code",
  "All interleavings of component life cycles with user code.",
  [ST+"yew/global.rs", ST+"yew/mod.rs", ST+"yew/hooks/use_style.rs", ST+"style_src.rs", ST+"manager/mod.rs: StyleManager::default"])
p("C62","Hydrated components get the classes of the server",
  "A component rendered below a ManagerProvider on the server with some CSS gets a class; when the provider is hydrated with the state the server handed over, a component with the same CSS below it gets that very class, whatever has been rendered in between, through use_style as well as through css! in a styled_component, as long as no style is unregistered by hand.",
  "all server programs, all client programs before and after hydration, all sheets and prefixes",
  "Two unbounded histories, on two machines, have to agree.",
  [ST+"yew/provider.rs: ManagerProvider", ST+"manager/mod.rs: load_style_data", ST+"manager/ssr.rs: style_data", ST+"yew/hooks/use_style.rs"])
p("C63","The server's style elements stay while hydrated components may use them",
  "If the page holds each style of the handed-over state in exactly one element, then after hydration each scoped one is in exactly one element, with the text the server wrote, at all times while the manager of the provider lives; hydrated components do not add a copy.",
  "all pages, states and programs",
  "All histories of creating and dropping styles after hydration.",
  [ST+"yew/provider.rs: ManagerProvider", ST+"manager/registry.rs", ST+"manager/content.rs: Drop for StyleContent", ST+"manager/mod.rs: load_style_data"])
p("C64","A provider may change its manager",
  "When a hydrated ManagerProvider is rendered again, with the same manager or with another, the classes its components get still have their styles in the page.",
  "all re-renderings of a provider",
  "Depends on when the old manager is dropped, on what it owned and on the order of yew's memo.",
  [ST+"yew/provider.rs: ManagerProvider", ST+"manager/mod.rs", ST+"manager/content.rs: Drop for StyleContent"])
p("C65","Providers give back what they take",
  "Mounting a ManagerProvider changes no style element and takes two owners of its manager; unmounting it gives both back. While the program still owns the manager, unmounting changes no style, no registration and no element.",
  "all programs before, while and after a provider is mounted",
  "Reference counts over all histories.",
  [ST+"yew/provider.rs: ManagerProvider", ST+"manager/mod.rs: StyleManager"])
p("C66","Creating a style from CSS text does what was asked, or leaves nothing",
  "Style::new/create/new_with_manager/create_with_manager and the GlobalStyle ones return a style whose CSS is the sheet the given text says, in the given manager (or the default one), with the given prefix (or the manager's); its element is in that manager's container. If the text is not CSS they return a parse error, and no style, element, registration or class name is left of the attempt. If the text is CSS and the manager can take styles they succeed.",
  "all programs before the call, all texts and sheets, all managers",
  "All histories of managers, styles, the parser cache and components before the call.",
  [ST+"style.rs: create_impl, create_with_manager, new_with_manager, create, new", ST+"global_style.rs", ST+"style_src.rs: IntoSheet", CORE+"ast/sheet.rs: from_str"])
p("C67","Texts that say the same CSS are the same style",
  "Creating a scoped style with a text, a sheet or another text that parses to the same sheet gives the very same class name and element as before, as long as the manager lives and nothing is unregistered by hand, whatever is created or dropped in between; no class name is used up and no element is added.",
  "all pairs of calls with the same sheet, prefix and manager, and all programs between them",
  "All histories between the two calls.",
  [ST+"style.rs", ST+"manager/registry.rs", ST+"manager/mod.rs: get_or_register_style"])
p("C68","Constructors give back what they take",
  "A constructor of Style or GlobalStyle leaves no owner of a manager behind: the managers handed over are dropped, all others keep their owners (but for the default one, made at the first use), no component's state changes, and a new style handle exists exactly if a style was returned.",
  "all programs and calls, successful or not",
  "Reference counts over all histories and error paths.",
  [ST+"style.rs", ST+"global_style.rs", ST+"manager/mod.rs: StyleManager::default"])
p("C69","The default manager is as documented and stays",
  "The default manager appends to the document's head, uses the prefix stylist and keeps no static data; once made, a thread has it for good, under the same handle.",
  "all programs",
  "All histories.",
  [ST+"manager/mod.rs: StyleManager::default, StyleManagerBuilder"])
p("C70","CSS written as text or in a macro takes effect in the page as written",
  "In a browser, after Style::new, create or GlobalStyle::new of a text of the documented grammar, of a literal macro or of an inline macro, the page has exactly one style element for it, and a CSS reader that looks at it finds the declarations that were written, with the values the embedded expressions have at that time, in order, scoped to the returned class (or global).",
  "all programs before the call, all texts of the grammar, all macro inputs, all values, each evaluation of a macro",
  "From source text to document, through macro, parser, registry and renderer, for all inputs and histories.",
  [ST+"style.rs", ST+"global_style.rs", CORE+"parser.rs", CORE+"ast/to_style_str.rs", MA+"literal/mod.rs", MA+"inline/mod.rs", ST+"manager/registry.rs"])
p("C71","A class name stays valid while its manager lives",
  "A class name taken from a scoped style refers to the same CSS in the page for as long as the style's manager lives and nothing is unregistered by hand, even when every handle of the style is gone; for the default manager that is for good.",
  "all programs before and after the style is created",
  "All histories after the class name was taken.",
  [ST+"style.rs: get_class_name, unregister", ST+"manager/mod.rs", ST+"manager/registry.rs", ST+"yew/mod.rs: From<Style> for Classes"])
p("C72","One class name, one CSS",
  "If two calls of constructors, at any two times, return styles with the same class name (or id), they asked for the same CSS, the same prefix and the same kind (scoped or global), in the same manager.",
  "all pairs of calls and all programs before and between them",
  "All histories between the two calls.",
  [ST+"style.rs", ST+"manager/registry.rs", ST+"utils.rs: get_entropy"])
p("C73","A macro run again with the same values gives the same class",
  "style! run again with expressions that display the same (a component rendered again) returns the same class, adds no element and uses up no class name, whatever was created or dropped in between, unless the style was unregistered by hand.",
  "all macro expansions, all values, all programs between the two evaluations",
  "All inputs of the macro and all histories between two evaluations.",
  [MA+"output/sheet.rs", MA+"output/str_frag.rs", ST+"style.rs", ST+"manager/registry.rs"])
p("C74","A page rendered on the server keeps its styles and classes after hydration, end to end",
  "A component below a ManagerProvider is rendered on the server; the static style markup is written into the page; the client hydrates the page with the style state the provider sent. Then the page, when it loads and at any later moment, says for the class the server printed exactly the declarations of the component's CSS; and the component rendered on the client, through use_style or css!, gets the class the server printed. The hydration itself does not panic if the server mounted no Global again after it was gone.",
  "all server programs and client programs before and after the component, all CSS, prefixes, random class names and managers",
  "All histories of both programs and all class names, across two processes.",
  [ST+"yew/provider.rs", ST+"manager/ssr.rs", ST+"manager/registry.rs", ST+"yew/hooks/use_style.rs"])
p("C75","css! in a styled component gives the classes of its CSS in the manager of the context",
  "In a function with the attribute styled_component, each css! that is made into classes gives the class name of the style with this CSS in the manager of the context the component is rendered in (the default one if there is none), with the location after it if there is one, whatever else the function does. The same CSS gets the same classes in every rendering and in every component below the same manager, as long as the manager lives and nothing is unregistered by hand; and the same class name is never given for two different pieces of CSS.",
  "all programs before, between and after, all functions (any mixture of css!, other calls and sources handed on), all sheets and managers",
  "All histories of renderings, and all interleavings of css! with other code in the function.",
  [MA+"styled_component_impl.rs", MA+"css.rs", ST+"style_src.rs", ST+"yew/mod.rs"])
p("C76","A rendering of a styled component gives back what it takes",
  "The manager that the attribute takes from the context and the clones css! attaches are dropped when the function returns: every owner of a manager from before still is one, and new owners are only the sources the function hands on and, the first time, the default manager. No handle of a style is left. If the styles are already there, rendering writes nothing to the document, removes nothing and uses up no class name. A function that only uses css! never panics if its manager can mount styles.",
  "all programs before, all functions that only use css! and its sources, in any order, all contexts",
  "All sequences of css! and uses of its sources, in every state of the program.",
  [MA+"styled_component_impl.rs", ST+"style_src.rs", ST+"manager/mod.rs"])
p("C77","The page says for the classes of a styled component what its css! says",
  "From the rendering on, as long as the manager lives and nothing is unregistered by hand, the page has one style element for each class a styled component got, and it says exactly what the CSS given to css! says, scoped to the class: the text of the literal with the placeholders replaced by the values the arguments had in this rendering, or the CSS written inline with the values of its expressions.",
  "all programs before and after, all functions, literals, arguments, inline inputs and values, all managers that mount into the document",
  "All histories, all macro inputs and all values at run time.",
  [MA+"sheet.rs", MA+"styled_component_impl.rs", MA+"css.rs", ST+"yew/mod.rs"])
p("C78","An application rendered on the server hydrates to the same classes, in every order",
  "An application is a tree of ManagerProviders and styled components, nested in any way. The server, in whatever order it renders siblings, does not panic and can always finish; at any time the style data read from each manager has the text of every style whose class a component below its providers got. When the browser hydrates the page with the states the providers sent, in any order of its own, and with managers of the same prefixes that were not used before, no provider and no component panics, every component gets exactly the classes the server printed for it, no element is added to the document or removed from it and no class name is drawn, and it can always finish.",
  "all trees of providers and components, all sheets, all schedules on the server and in the browser, all programs before on both sides, all managers and random class names",
  "All trees and all interleavings in two processes.",
  [ST+"yew/provider.rs", MA+"styled_component_impl.rs", ST+"manager/mod.rs", ST+"manager/ssr.rs", ST+"manager/registry.rs"])
p("C79","CSS given to Global and use_style as text, sheet or macro takes effect, and only text that does not parse panics",
  "<Global css={..} /> and use_style(..) accept CSS as a string, a Sheet or a StyleSource. From the moment a Global is rendered until it is rendered again or unmounted, whatever else the program does (other components, hooks, styles unregistered by hand), the document has an element, under an id that is not the page's, that says exactly what the CSS says; the class that class={style} yields for a style of use_style, made at any later time, is the class of an element that says what the CSS says, scoped to it, for as long as the manager of the context lives and nothing is unregistered by hand. If the manager can put styles somewhere, rendering panics exactly if the CSS is text that does not parse.",
  "all programs before, between and after, all texts, macro inputs and values, all managers of the context that mount into the document",
  "All histories and all CSS.",
  [ST+"yew/mod.rs", ST+"yew/global.rs", ST+"yew/hooks/use_style.rs", ST+"style_src.rs", ST+"global_style.rs", ST+"style.rs"])
p("C80","Over its whole life an application has the classes of its managers, nothing is unstyled, nothing panics, and nothing is kept",
  "An application in the browser, hydrated or rendered from nothing, whose components and providers are mounted, rendered again with the same or other properties, and destroyed, and whose providers get other managers, in any order and mixed with other code that unregisters nothing: a component rendered since its provider last changed its manager has the classes of its CSS in that manager (without a provider, in the default one), and any other one still has classes that the page styles; two such components with the same CSS and the same manager have the same classes, also at different times, and those are the ones the server has sent, if there was one; in managers that mount into the page, the page says what the CSS of every component says, at every moment; if styles can be mounted and read back, only other code can panic, and all that waits can be rendered; rendering again when nothing waits makes no style, draws no random number and changes no class; the application owns two manager handles per mounted provider (and the default manager) and nothing else, so when all is destroyed what it owned is given back.",
  "all trees, all sequences of events at all nodes, all programs around them",
  "All histories of an application, all interleavings with other code.",
  [ST+"yew/provider.rs", MA+"styled_component_impl.rs", ST+"manager/mod.rs", ST+"style.rs"])
p("C81","A macro call without interpolation builds its sheet once and allocates nothing",
  "A css!, style! or global_style! call in which no value is interpolated builds its sheet at most once in the whole program: every evaluation gives that one sheet, all of whose texts, lists, rules and blocks are borrowed from the program's constants. A call with a string literal that compiles is of this kind exactly if it has no arguments, and one with CSS in Rust tokens exactly if the sheet it spells does not depend on any value. Calls that do interpolate are never cached (C39).",
  "all sheets a macro can build, all calls with a string literal, any number of evaluations with any values",
  "All inputs and all histories of evaluations; the generated code depends on every part of the sheet.",
  [MA+"output/maybe_static.rs", MA+"output/context.rs", MA+"output/sheet.rs", MA+"literal/mod.rs"])
p("C82","The class name only fills gaps in the text of a style",
  "The CSS text of a scoped style depends on its class name only in that the class selector is written into it: the text under another class name is the text with every occurrence of the first class selector replaced by the second, provided that the style sheet itself mentions neither. So the same CSS in two managers, with other prefixes or numbers, on the server or in the browser, is the same text but for the class.",
  "all sheets, all pairs of class names that are identifiers and not mentioned by the sheet, all styles of all programs",
  "All sheets and all class names; the layout depends on comparing texts that contain the class.",
  [CORE+"ast/context.rs", CORE+"ast/selector.rs", CORE+"ast/block.rs", ST+"style.rs"])
p("C83","The items of a style sheet are written independently of each other",
  "The text of a sheet is the text of its items at the top level, one after the other: putting items before, behind or between others neither changes nor splits nor merges the text of the others, with a class and without.",
  "all sheets, all class names",
  "All combinations of items: the writer keeps open blocks between items, and one left open would change all that follows.",
  [CORE+"ast/context.rs", CORE+"ast/sheet.rs", CORE+"ast/block.rs", CORE+"ast/rule.rs"])
p("C84","CSS texts can be put after each other",
  "Parsing one well-formed CSS text followed by another gives the items of the first and then those of the second; only declarations outside braces that come to stand next to each other become one group. All declarations of both apply where they did, in this order, and after a text that ends with a brace the style is the text of the one style and then that of the other. The exception is a text that ends with declarations outside braces before one that begins with a selector that starts like a declaration, such as a:hover (C14).",
  "all pairs of texts of the grammar, in any layout, all class names",
  "All pairs of texts: the parser tries alternatives that read ahead, so what follows could change how a text is read.",
  [CORE+"parser.rs", CORE+"ast/sheet.rs", CORE+"ast/context.rs"])
p("C85","The attribute of a styled component leaves the function's code alone",
  "#[styled_component] and #[styled_component_impl] accept a function, the former with nothing or one name in its parentheses, the latter with nothing, and everything else is a compile error. The function keeps its attributes, visibility and signature. Inside of it every variable refers to what it did without the attribute, also one with the name that the attribute uses for the manager, and every css! that is not the function's own macro uses the manager taken from the context at the begin of the function, in every nested block and macro.",
  "all functions, bodies, parameter and variable names, all tokens in the parentheses",
  "All bodies and all names.",
  [MA+"styled_component.rs", MA+"styled_component_impl.rs", MA+"lib.rs"])
p("C86", "Threads do not disturb each other",
  "Whatever several threads of a process do and however they are interleaved, every `Sheet::from_str` "
  "returns what parsing its text alone gives, every macro call returns its sheet, the class-name entropies that the "
  "threads draw are together the first values of the counter, each given to exactly one call (so they are different "
  "until the 64-bit counter wraps), no text that is CSS is parsed twice and no sheet of a macro is built twice. "
  "The threads cannot block each other for ever: as long as one has a call to finish, some thread can go on, and "
  "all are done after a number of rounds that depends on the calls only.",
  "all numbers of threads, all sequences of calls in each, all interleavings at the accesses to shared state",
  "A test runs a few interleavings, chosen by the scheduler of the machine.",
  [CORE+"ast/sheet.rs: CACHED_SHEETS, Sheet::from_str", ST+"utils.rs: get_next_style_id", MA+"output/sheet.rs: SHEET_REF"])

p("C87", "The error of a text that is no CSS says where reading stopped",
  "If `Sheet::from_str` rejects a text, the first entry of the error's source is a rest of the text such that what "
  "comes before it is CSS, and what comes after starts neither with white space nor with anything that can be read: by itself it is "
  "rejected at its very beginning. The reason names the line of this place, shows this line and a caret below it "
  "(placed by bytes, so it is below the place if the line is ASCII before it), and then twice the first line of the text. "
  "`unwrap_display` and `expect_display` give the sheet or panic with exactly this message.",
  "all texts", "A test looks at the errors of a few texts.",
  [CORE+"parser.rs: Parser::parse, traced_context, expect_non_empty", CORE+"error.rs: Error, ResultDisplay"])

p("C88", "Reading CSS takes work at most quadratic in the text",
  "The number of steps `Sheet::from_str` takes (parser calls, and characters looked at by scanning) is at most a "
  "constant times the square of the length of the text, also for texts that are rejected and for at-rules nested to any depth: "
  "trying one reading after another never makes the time grow exponentially with the nesting. The square is needed: some texts of any length take that much.",
  "all texts, accepted or not", "A test times a few texts; the text that makes backtracking blow up is the one it does not have.",
  [CORE+"parser.rs: Parser::parse, sheet, scope, block, rule, condition, interpolation, string, cmt"])

p("C89", "The CSS of a style is not much bigger than the style",
  "The CSS text written for a style (`Style::get_style_str`, `to_style_str`) has at most as many chars as the number of items "
  "(declarations, blocks, rules at any depth) times a constant times (the square of the depth of rules in each other, for the indentation, plus "
  "the number of chars of all texts times the square of the room of the class name). A sheet read from a text is not "
  "bigger than twice the text, so the CSS is at most cubic in the text, and quadratic for a limited depth. Nested sheets reach the cube.",
  "all sheets, class names and texts", "A test writes a few sheets; conditions written again for every declaration could make the size explode for deeper ones.",
  [CORE+"ast/context.rs: StyleContext::start, finish, write_padding", CORE+"ast/selector.rs: write_style", CORE+"ast/block.rs, rule.rs, style_attr.rs: write_style", CORE+"parser.rs: Parser::parse"])

p("C90", "How deep the parser calls itself depends on the nesting of the CSS only",
  "Reading CSS (`Style::new` with a string, `StyleSource` from a string, `Sheet::from_str`) nests calls of the parser inside each other no deeper than the rules "
  "of the resulting style are nested, plus two; a style without nested rules is read in a constant depth, whatever its length. At least the nesting is needed. "
  "A text that is rejected never needs more than its number of opening braces plus two, and some rejected texts do need one level for every opening brace. "
  "A limit on the depth that is not reached does not change the result.",
  "all texts and all limits on the depth of calls", "A test reads some texts and cannot tell how much of the stack a longer or deeper one takes: overflowing the stack aborts the program.",
  [CORE+"parser.rs: Parser::scope_contents, at_rule, block, keyframes, rule_block, rule_block_contents, sheet, parse"])

p("C91", "The styles collected on a server can be read from any thread at any time",
  "`StaticReader::read_style_data` called in one thread while another thread creates styles with the managers of the writers returns the data as they are between two "
  "calls of that thread: they contain the style of every call that had returned before the read, none of a call that had not begun when the read returned, and are the beginning of what "
  "is collected in the end; a style is never there in part. The creating thread gets the same results as without readers. "
  "Panics in creations never make a reader get empty data. Neither side deadlocks, and all calls return in a bounded number of turns.",
  "all programs of manager calls, all sets of readers, all interleavings", "A test runs a few interleavings of two threads, chosen by the scheduler.",
  [ST+"manager/ssr.rs: StaticReader::read_style_data, render_static, StaticWriter", ST+"manager/mod.rs: StyleManager::get_or_register_style, style_data", ST+"manager/registry.rs: StyleRegistry::register", ST+"yew/provider.rs"])

p("C92", "The class handed out is one class, and the CSS of the style selects it",
  "An element whose class attribute lists the class name returned by `Style::get_class_name`, among any other classes, is an element that the class selectors in the style's CSS text "
  "select, whatever prefix was asked for: read as CSS and HTML say, `.name` is the class selector of that very name, and the name is a single class in the attribute.",
  "all programs and prefixes, all generated suffixes, all selectors, all other classes of the element", "A test has the default prefix; prefixes that are no CSS names need the rules of CSS and HTML.",
  [ST+"manager/key.rs: StyleId::new_scoped", ST+"utils.rs: get_entropy", ST+"style.rs: Style::create, get_class_name", CORE+"ast/selector.rs"])

p("C93", "Values of declarations end where CSS ends them",
  "The value of a declaration given as text to `Style::new`, `Sheet::from_str` or the macros is read as CSS reads it: strings in single or double quotes, `url(..)` without quotes and blocks in "
  "brackets belong to it as a whole, and the next declaration begins after the first semicolon outside of them.",
  "all property names and all values", "The values are infinitely many, and one char inside a string or an address decides.",
  [CORE+"parser.rs: Parser::style_attr_value, string, attribute, attributes"])

p("C94", "At-rules are read however CSS lets them be written, or are errors",
  "A style text that starts with an at-rule of a supported kind (@media, @supports, @container, @keyframes) is read whatever white space CSS allows between the name and the condition. "
  "A text that starts with any other at-rule is an error: it is never dropped, nor taken for a selector.",
  "all texts after the @, all conditions, contents and white space", "The texts are infinitely many.",
  [CORE+"parser.rs: Parser::at_rule_condition, at_rule, keyframes, scope_contents, selector"])

p("C95", "Selectors are read as they are written",
  "The selector of a block given as text is read as one selector with exactly its text, whatever selector CSS allows: strings in either quotes, escaped chars, and lists in parentheses belong to it as a whole.",
  "all selectors", "The selectors are infinitely many, and one char inside a string or after a backslash decides.",
  [CORE+"parser.rs: Parser::selector, condition, string, block"])

p("C96", "The animations of a style are its own",
  "If the CSS of a style defines an animation with @keyframes, all its frames are written as one rule, and an element with the class of the style moves as this CSS says, whatever other styles are created: the name of the animation is the style's own, as its class is.",
  "all CSS, all programs and all later histories", "It is about any two styles of a program and about every order in which they are created.",
  [CORE+"ast/rule.rs: Rule::write_style", CORE+"ast/context.rs: StyleContext::start, finish, close_until_common_parent", ST+"manager/mod.rs: StyleManager::mount"])

p("C97", "A scoped style selects nothing where no element has its class",
  "Whatever the selectors of a scoped style, they select an element only if some element has the class of the style: itself or one its combinators reach. So a style never changes a page in which its class is not used.",
  "all class names, all selectors and all styles", "One char inside of parentheses, brackets or a string decides, and selectors are infinitely many.",
  [CORE+"ast/selector.rs: Selector::write_style", CORE+"ast/block.rs: Block::cond_str"])

p("C98", "A scoped style styles its element and what is inside of it",
  "Whatever the selectors of a scoped style, they select only elements that have the class of the style and elements inside of these: a style does not reach parents, siblings or other parts of the page.",
  "all class names, all selectors, all styles and all pages", "Selectors and pages are infinitely many; one combinator after the class decides.",
  [CORE+"ast/selector.rs: Selector::write_style", CORE+"ast/block.rs: Block::cond_str"])

p("C99", "The selectors of a scoped style say of the elements with its class what they say of &",
  "In every page, the CSS that is written for a selector of a scoped style selects what the selector selects if & stands for the elements that have the class, where :root is another way to write &, a selector without either is about what is inside of & and one that starts with a colon is about & itself. A style has one such declaration for each one that is written, in order and in the same at-rules.",
  "all class names, all selectors and lists of them, all styles and all pages", "Selectors and pages are infinitely many, and the class replaces a marker wherever it is written, next to any other text.",
  [CORE+"ast/selector.rs: Selector::write_style", CORE+"ast/block.rs: Block::cond_str"])

p("C100", "A list of selectors selects what one of its selectors selects",
  "In every page, the declarations of a block with several selectors apply to an element exactly if what is written for one of the selectors selects it, in scoped and in global styles: putting the class into each of them changes nothing about the others.",
  "all class names, all lists of selectors and all pages", "Lists, selectors and pages are infinitely many; a comma in parentheses looks as one between selectors.",
  [CORE+"ast/block.rs: Block::cond_str", CORE+"ast/selector.rs: Selector::write_style", CORE+"parser.rs: Parser::block"])

import sys
with open('/verif/properties.jsonl','w') as f:
    for x in P: f.write(json.dumps(x)+"\n")
print(len(P))
