# Formal model of stylist-rs

Target: `futursolo/stylist-rs` at the commit in `/repo` (crates `stylist-core`, `stylist`, `stylist-macros`).
Prover: Coq 8.16.1, standard library only.

## 1. Method

The Rust code is transcribed function by function into total, computable Gallina functions.
Every definition of the model cites the file and lines it models and says where it simplifies.
Specifications are written separately from the model (files `Spec*.v`), in terms of the observable
effects only (text, document, class names, errors). Property theorems live in `Props*.v`: each is a
statement, a proof by reference to a lemma, a `Print Assumptions`, and next to it an `Example` showing a
concrete case that meets the hypotheses.

Where the faithful model violates the property as a user would state it, a `..._refuted` theorem gives
the witness, and the strongest true variant is proved beside it.

### Representation choices

* `char` (Rust) = `N` (a code point); `str`/`String` = `list N`. All of Rust's `char`s are covered; the
  model also ranges over numbers that are not scalar values, which only makes the theorems stronger.
  UTF-8 encoding and byte offsets are not modelled: every operation used (`nom` on `&str`, `trim`,
  `replace`, `contains`, `starts_with`) works on char boundaries.
* `Cow`/`Bow`/`Vec`/`&'static [..]` are values (lists); ownership only matters in `Owned.v`, `Serde.v`.
* `&mut String` writers are append-only, so the model returns the appended text.
* nom 7 combinators are re-implemented (`Nom.v`) from their documented semantics, including the
  "no progress" error of `many0`/`many1`; error payloads (`VerboseError`) are dropped.
* Loops and recursion that Rust leaves to run-time are given fuel with an explicit `RFuel` outcome, and
  a theorem shows the outcome never arises.
* `Rc`/`Weak`: an object is dropped when no strong reference is left (reference counting without cycles);
  the model keeps the strong references explicitly.
* Randomness is an arbitrary stream of suffixes.
* DOM: containers with ordered child nodes; `appendChild`, `insertBefore`, `querySelector`, `removeChild`
  follow the DOM standard for the calls made.

## 2. Model files and what they model

| file | models |
|---|---|
| `Str.v` | the `str` operations used (`trim`, `replace`, `contains`, `starts_with`, join) |
| `Ast.v` | `stylist-core/src/ast/*` data types |
| `Render.v` | `ast/context.rs`, `write_style` of every AST node, `to_style_str.rs` |
| `Nom.v`, `CssParser.v` | nom combinators, `stylist-core/src/parser.rs` |
| `SheetCache.v` | `ast/sheet.rs` cached `from_str` |
| `Owned.v` | `bow.rs` and the AST with borrowed and owned parts told apart: `Deref`, `PartialEq`, `Clone`, `Hash` |
| `Serde.v` | serde derives of AST, key, id, style data, for positional and self-describing formats |
| `Ids.v` | `utils.rs`, `manager/key.rs` (class names, counter, suffixes) |
| `Manager.v` | `stylist/src/manager/*`, `style.rs`, `global_style.rs` over a document of containers |
| `StaticData.v` | the `Arc<Vec>` of `manager/ssr.rs`, `write_static_markup` |
| `Tok.v` | token trees of `proc_macro2` and interpolated expressions |
| `Fstring.v`, `LitMacro.v` | `stylist-macros/src/literal/*` |
| `Output.v` | `stylist-macros/src/output/*`: output trees, the generated expressions and their evaluation |
| `Inline.v` | `stylist-macros/src/inline/*`, `spacing_iterator.rs` |
| `Provider.v` | `yew/provider.rs`: the provider on the server and hydrated |
| `Hooks.v` | `style_src.rs`, `yew/global.rs`, `yew/mod.rs`, `yew/hooks/*`, `styled_component_impl.rs` as machines over `Manager.v` |
| `Component.v` | `styled_component_impl.rs`: one rendering of a function with the attribute, with `css!`, `Classes` and sources handed on, over the programs of `Create.v` |
| `Tree.v` | an application as a tree of `yew/provider.rs` providers and `styled_component`s: rendering one node at a time in any order on the server, the states sent, hydration in any order in the browser |
| `Living.v` | the same trees in the browser as they go on: mounting, rendering again, other properties, other managers, destroying, other code, in any order |
| `PropValue.v` | `yew/mod.rs` (`IntoPropValue`, `From<Style> for Classes`): `<Global css={..} />`, `use_style(..)` and `class={style}` with text, sheets and sources |
| `Attr.v` | `styled_component.rs`, `styled_component_impl.rs`: what the attributes make of the tokens of a function |
| `WNom.v`, `WParser.v` | `parser.rs` once more, counting the work of each combinator |
| `VNom.v`, `VParser.v` | `parser.rs` once more, with the errors; `error.rs` (`Display`, `ResultDisplay`) |
| `Threads.v` | the process-wide state under threads: `ast/sheet.rs` (the cache and its lock), `utils.rs` (the counter), `output/sheet.rs` (the `Lazy` sheets) |
| `Collect.v` | `manager/ssr.rs`, `manager/mod.rs` `get_or_register_style`: collected styles under threads |
| `MacroFn.v` | `sheet.rs`: the entry of all macros |
| `Create.v` | the constructors of `style.rs` and `global_style.rs` with the cached parser and the default manager, as calls of a program |

## 3. Plan per property

* C01, C02, C03: the writer is shown to emit a well-bracketed event list (open / close / declaration) that
  an independent stack reader turns into the flattened declarations; invariant: the open contexts of the
  chain have conditions that are prefixes of one another and the emitted stack equals the conditions of the
  nearest open context. An independent character-level CSS reader (quotes, braces, semicolons) is then run on
  the text.
* C04: induction over declaration-free trees; keyframes case separately.
* C05, C06, C07: string lemmas about the two replacements; C07 is refuted (`&` in quotes);
  `quoted_text_exact` says exactly what becomes of quoted text and when it is kept (replacement splits at quotes).
* C08: corollary of C01 for dangling blocks at any at-rule depth.
* C09: fuel adequacy. C10: suffix/progress analysis of every nonterminal.
* C11: relational grammar (`SpecGrammar.v`) with arbitrary layout; completeness of the parser.
* C12: invariants of parser results. C13: rendered text lies in the grammar, then C11 and C01.
  Expected refutation for empty keyframes (debug re-parse panics).
* C14: positive part from C11; expected refutation for `color: red; a:hover {...}`; and the exact condition (`declaration_before_block_iff`): kept apart if and only if the selector does not start like a declaration.
* C15: positive part for selectors without parentheses; refutation for `:is(a, b)`; `selector_list_split_iff`: the
  selectors meant are found exactly when none has a comma outside strings.
* C16: refuted for keyframes, frames and nested rules, for which blank space between empty braces is accepted
  exactly when there is none (`blank_in_empty_braces_iff`); proved for blocks and top-level at-rules.
* C17: invariant over histories of the cache.
* C18, C20, C21, C22, C24, C25, C27, C30: state machine with an invariant preserved by every operation.
* C19: injectivity of decimal printing and of the id format.
* C23, C26, C29, C32: expected refutations with proved positive parts.  For C26 (unregistering)
  and C32 (loading style data) the exact conditions are proved as well: `unregister_exact` and
  `style_data_loads_iff`.
* C28, C31: relation between a server history and a client state.
* C33, C34: structural induction on the serde data model.
* C35–C41: fstring scanner, output tree, reify, evaluation of the generated code.
* C42–C46, C54, C55: token-stream model of the inline macro.  `SpecInline.v` gives a grammar that says how Rust
  tokens read as CSS items (no fuel, no errors, no backtracking) and the sheet the items spell; the macro is proved
  sound and complete for it.  `expr_of` (which token trees syn accepts as an expression) is a universally quantified
  parameter; hygiene, spans, groups without delimiters and C string literals are left out.  C46 exactly:
  `SpecInlineAny.v` is a second grammar for all inputs that get past the parser; `inline_panics_iff`,
  `inline_syntax_error_iff` and `inline_errors_iff` say which inputs end in which way.
* C47, C49, C56–C59: `Hooks.v` makes components, sources and the default manager into programs over the operations of
  the manager model; each component owns handles that user code cannot touch.  An invariant (`HookFacts.good`) says
  what each mounted component owns; `HookOnly.only` says that all global styles are the components'.
* What survives of C56–C59 (`HookTame.v`, `HookOnce.v`, `PropsGlobal.v`): programs are made of steps that unregister only
  styles of a chosen set; what is not in the set stays registered while its manager lives, and what is registered is made
  once. With the set chosen as "everything but the CSS in question" this gives C56's partial theorem, with "the CSS of
  components that are gone" C58's.
* C48: the two media query hooks as machines over histories of renderings, effects and media changes; the plain hook exactly (`media_query_current_iff`). C54 exactly: `inline_words_apart_iff`.
* C50: lists.
* C60, C61: an invariant says that managers stay as they were built and containers keep taking elements, so every step of
  a program allowed by `SpecProgress.v` has a result.
* C62–C65: `Provider.v` puts the provider on top of the programs of `Hooks.v`. Loading registers every record under its
  key and id; programs that unregister nothing keep scoped registrations while their manager lives (`HookKeep.v`), so
  the class found later is the recorded one, and the page's element stays by C21's theorem. Changing the manager is
  refuted by a run. Owners are counted by the invariant of `ManagerCore.v`.
* C66–C69: `Create.v` puts the public constructors on top of the programs of `Hooks.v` and of the parser cache: converting
  the text (`SheetCache.v`), finding the manager, registering, and dropping what was handed over, in the order of the
  code. One lemma (`CreateFacts.perform_spec`) says what a call does; the cache gives what the parser gives by C17, reuse
  across a program is by `HookKeep.v`, elements by C21's theorems.
* C70–C73: `PropsPage.v` composes the other results over the programs of `Create.v`: text to sheet (C11), macro to sheet
  (C35, C43), sheet to the one element in the head (C21, C66), element text to what a CSS reader finds (C01). That a class
  stays valid is `HookKeep.v` and C21; one class, one CSS is that ids name contents (C19) and contents keep their
  keys. Equal values give equal sheets by induction on the generated code (`ev_rbc_ext`), then C67. The words used are in
  `SpecPage.v`.
* C74: `PropsServed.v` composes server, page and client: `SpecServed.v` says when a page carries a markup (what an HTML reader
  finds in it is what the `<style>` elements of the page say); the proof joins C50 (markup), C28 and C62 (classes),
  C63 (elements), C58 (loading) and C01 (what the text says).
* C75–C77: `Component.v` runs the function of a component over the programs of `Create.v`; its local variables (the manager
  of the context, the sources of `css!`) are a frame. `ComponentFacts.v` keeps as an invariant that the handles of the frame are
  live, distinct, in the manager of the context and owned by nobody else (`fgood`), and for functions that only use `css!` that
  nothing else changes hands (`plain`). The classes stay those of the CSS because scoped registrations survive every step while
  the manager lives. C77 joins this with C22 (elements), C01 (texts) and C35, C43 (macros).
* C78: `Tree.v` has trees of providers and components; a schedule says which node is taken next. The proof is an invariant of
  the server's tree (each component's classes are those of its CSS in its provider's manager; the state of a finished provider
  has a record for every class below it), kept by every step, and one of the pair of the server's finished tree and the
  browser's tree (what is shown is equal, what is registered in the browser has the id it has on the server), again kept
  by every step. A measure on trees gives that every run can be finished. Simplifications: elements without styles are left
  out, and a source handed on to a child is not followed.
* C79: `PropValue.v` has the conversions of properties, and programs that use them. Each step is some steps of the programs of
  `Component.v`, so their invariants hold. A `Global` keeps carrying its CSS through every step that does not render it again
  (`crun_carried`), and what is carried is in the document (C47); what use_style made stays registered (C75). The panics
  follow from C60: creating succeeds if the manager can settle.
* C80: `Living.v` has trees that change by events at any node, `SpecLiving.v` what is said of them. The proof is an invariant of
  each event (`LivingFacts.v`): the classes of every component are registered in its manager, or, until it is rendered again,
  in one of the application; the tree owns exactly the handles of its providers. Steps of the program keep what is
  registered as long as the manager lives (C75). That rendering goes to an end is by a measure of what waits.

* C52 exactly (`LeakFacts.v`, `PropsLeak.v`): an invariant of all reached worlds says that an element in a container outside
  of the document, or with an id that is no plain identifier, is never removed; with `in_document_exactly_while_alive` this
  gives both directions. C58 exactly (`GoneFacts.v`, `PropsGone.v`): an invariant says that the keys of gone components are not
  registered, so mounting them again makes a second record with another id. C64 for another manager
  (`SwitchFacts.v`, `PropsSwitch.v`): the steps of the provider one by one, in both orders of yew's `use_memo`. C59 exactly: `source_style_stays_iff`, from uniqueness of ids and reference counts of managers.
* C29 exactly: `GlobalText.v` runs the renderer with a class and without one in lockstep; the outputs agree until the
  first text in a block, and differ there whatever follows (`same_text_iff`; `SpecGlobalText.v` says which sheets have
  such a text).  C37, C51, C57 exactly: `PropsExact3.v`.
* C56 exactly: `PropsShare.v` shows that two `Global`s share an element if and only if none of their CSS went between
  their mounts.  The manager only forgets the style when one is unmounted, and what is created after that has a newer
  number.  C50 exactly: what is read up to a quote holds no quote.
* C81: `SpecStatic.v` says what a sheet without heap parts is.  `PropsStatic.v` shows by induction on the output tree that
  reifying it without interpolation leaves the context constant, so that the code is accepted in a constant and its
  value is borrowed; for literals, that every argument is used by an interpolation (`uses`).
* C82: `RenameFacts.v` runs the renderer with two classes in lockstep.  Texts are instances of texts with gaps; a word that
  begins with a dot, has no other dot and does not occur outside of the gaps can be read back (`inst_fun`), so that
  conditions are equal under one class exactly if they are under the other, and all decisions are the same.
* C83: `ComposeFacts.v` shows that the outermost context is never opened, so that every item starts from the same state.
* C84: the grammar of C11 is closed under putting one text after another, by induction on the text; SpecJoin says what the joined sheet is.
* C85: `SpecScope.v` says what the names in a function body refer to; the scopes with and without the attribute are related through the whole body by induction on its tokens.
* C86: `Threads.v` is a machine of any number of threads whose steps are the accesses to what a
  process shares: `CACHED_SHEETS`' lock and map, `CTR` and the `Lazy` sheets of macros.  An invariant
  over all schedules (`ThreadFacts.v`) gives the answers, the names and that nothing is done twice; a
  cost that every step lowers and the absence of waiting circles give that all threads finish.  `PropsThreadNames.v` puts managers
  into the threads: what a thread draws satisfies what the theorems about managers ask for, and styles
  of different threads never get one name (C19).
  The specification (right answers, done threads, rounds) is `SpecThreads.v`.
* C87: `VNom.v` and `VParser.v` are the parser again with the errors of nom (contexts, kinds and
  places) and `convert_error`.  Erasing the errors gives the parser of `CssParser.v` (`VFacts.v`); the only
  error that leaves the sheet parser is the one of the outermost loop, where a scope takes nothing.
  Places by lines and the layout of the message are specified in `SpecError.v`.
* C88: `WNom.v` and `WParser.v` are the parser again, each combinator returning the work done besides its
  result: one for each parser called and each character a scan takes or compares.  Forgetting the
  count gives the parser of `CssParser.v` (`WFacts.v`, `work_changes_nothing`).  `WBound.v` has classes of
  parsers by their work in terms of what they take and of what is left; `WFlat.v` puts the attribute
  parsers in the linear class, `WDeep.v` the selectors and the nested scopes in the quadratic one.  The point for nesting:
  at one place at most one of the alternatives with braces gets past its condition, so what is between
  the braces is read at most once for each level.  `WLow.v` has the texts that need the square.  Logging, allocation and collecting errors are not counted.
* C89: `SpecSize.v` says what the size of a sheet is.  The contexts opened and closed while writing are paid for
  by the items: every item opens at most one context, and a context is closed once for each time it is opened
  (`SizeFacts.v`).  That a sheet is not bigger than its text follows from `SpecSays.v` (`SizeText.v`), where also the
  nested sheets that reach the cube are.
* C90: the model of the parser takes a limit on nested calls; `parse_within` (`SpecDepth.v`) gives that limit from
  outside.  Each nested call is made after an opening brace (`DepthFacts.v`), and for an accepted text each call
  returns a rule of the result or looks once for a next one (`DepthNest.v`: a loop that ends before a closing brace
  ends for any limit above zero).  `DepthGates.v` has the rejected texts that need one call for every opening brace.
* C91: `Collect.v` splits the calls of `Manager.v` that touch the collected data at the points where the lock is taken
  and dropped, and runs them interleaved with readers.  The invariant (`CollectFacts.v`) relates each point to the
  states of the program run alone; the registry is asked before the lock is taken, so `register` does not find the key
  occupied, and nothing else panics while the lock is held.
* C92: `SpecClass.v` reads class selectors (CSS Syntax 3: preprocessing, escapes, names) and class attributes (HTML).
  A name as long as its text has no escapes (`ClassFacts.v`), so `.x` means `x` exactly if `x` is a name; the condition
  on the prefix follows from the shape of generated suffixes.  Refuted for prefixes that are no names.
* C93: `SpecValue.v` has the values of CSS.  Refuted by witnesses; the exact condition follows from soundness (C10: the parts
  of the text are determined, as the value cannot be longer than the text) and completeness (C11).
* C94: by soundness (C10) a text starting with `@` can only be an at-rule, since selectors, names and blank space do not start
  so; sufficiency by completeness (C11), rejection otherwise by totality (C09).  Refuted for other white space.
* C95: the same for selectors.  Soundness (C10) on the text `s{}`: the lengths leave room for nothing but `s` itself as the
  one selector, and its pieces are then the selector text of the grammar; sufficiency by completeness (C11).
* C96: `SpecAnimation` reads the style elements of a page as CSS reads @keyframes: of two rules of a name the last one counts, and
  nothing of the other.  A second induction over the writer shows that a @keyframes rule at the top is opened once and stays open
  until its last frame is written (no context inside of it closes it); the page is that of C70 and C71.
* C97: `SpecGuard` reads a selector char by char (strings, comments, escapes, parentheses, brackets) and asks for the class as a
  whole class selector outside of them.  It also splits lists of selectors at commas and selectors into simple selectors and
  combinators, and says what they select in a page whose other matching is arbitrary.  The decomposition of C05 into pieces and
  markers, on both sides of a marker; the converse finds the marker by comparing lengths (a class name has no dot).  The class is
  one of the simple selectors that are read, so that some element has it if anything is selected.
* C98: `SpecConfine` adds to the pages of C97 what is inside of an element.  The class is a simple selector that is read, the first
  combinator after it leads inside, and no later one leads out again; putting the class for the markers changes no combinator.
  The converse builds, from the tokens of a selector, the page with one element for each compound selector.
* C99: `SpecNested` writes a selector with its `&` and makes the page in which `&` matches the elements with the class.  Putting the
  class for `&` is neutral for the reading of lists and of tokens, so both texts are read as the same list of tokens but for `&`.
* C100: the written list is split at the commas between the selectors, as each has none of its own and ends outside of strings and
  parentheses; white space before a selector changes nothing.  Refuted for commas in parentheses.


## 4. Not modelled

* `yew` rendering itself, `wasm-bindgen`, `web-sys` beyond the calls listed; documentation tooling; examples; the texts of
  compile errors of the macros; `Debug` impls.
* `rustc` semantics of generated code beyond the const/static rules stated in `Output.v` and the scopes of `SpecScope.v`.
* The size of stack frames (C90 bounds how many the parser nests), memory exhaustion, poisoning of locks other than that of
  the collected data (C91).

## 5. Trusted base

Coq's kernel; the transcription of the Rust code; the nom, DOM, serde and Rc semantics stated above.
For `Hooks.v` also what it says of yew 0.22: `use_memo` keeps its value while the dependencies are equal, and in which
order it drops value and dependencies is a parameter; the server destroys a component after rendering it;
`use_state_eq` handles set the state of the component at any time; `use_effect_with` runs after a rendering with other
dependencies; a media query list fires `change` exactly when its match changes;
`use_transitive_state!` gives the client what the server computed once the children were rendered, at every rendering.
`Print Assumptions` of every property theorem: see section 6 (kept up to date with the build).

## 6. Assumptions

Every theorem named in MANIFEST.json is followed by `Print Assumptions`; all of them print "Closed under the global
context": no axioms at all, neither of the standard library nor of our own.
