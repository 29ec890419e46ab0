# Formal model of netascode/xmldot: design

Prover: Rocq/Coq 8.16.1, library prefix `Verif`, sources in `rocq/theories`.

## 1. Trusted base

* The Coq kernel, `vm_compute` included (used for concrete witnesses only).
* What `Print Assumptions` lists under every theorem of the `Prop*.v` files: "Closed
  under the global context" for all of them. The development adds no axioms and uses
  none of the standard library's.
* Unmodelled runtime behaviour is an explicit *argument* (record `env`), and every
  fact assumed about it is a named hypothesis of the theorem that uses it.
* That the Gallina functions in `GoStr.v` and the `Model*` files describe the Go code.
  Every definition cites file and lines; simplifications are stated in the comment.
* That the `Spec*` files say what a user would understand. They take
  from the model the data types only (results, options, comparison operators, calls of
  the public functions, the `env` record), with one exception: `condition_value` in
  `SpecFilter.v` speaks of the value that `get` itself returns for the path of a
  condition. `SpecLang.v` replaces it by the tree semantics of that path.
* Not trusted: proof files, examples, tactics.

## 2. Representation

* Byte strings are `list ascii` (`bytes`). Lengths are unbounded `nat`; limits such as
  10 MiB are `N` constants. Go `int` is `Z` with explicit 64-bit clamping where the Go
  code can reach it (`strconv.ParseInt`, `Result.Int`).
* The scanner (`xmlParser`) is represented by the unread suffix `p.data[p.pos:]`;
  `p.pos` is recovered as a difference of lengths. `peek` is the head of the suffix
  and `next` its tail, so "position" can never leave the document.
* Go slicing that can panic returns the explicit outcome `Panic` of
  `Res A := Ok | Panic | OutOfFuel`. Loops that are not structurally recursive take
  fuel. Running out of fuel is the explicit outcome `OutOfFuel`; C15 shows that the
  public entry points never produce it, so no theorem is vacuous because of fuel.
* Go map iteration order is an oracle `e_ord`, indexed by a key that differs for every
  `range` executed (site, scanner position, key of the parent scanner). Theorems
  quantify over all oracles that return permutations; a few theorems about two calls
  need the order not to change between them and say so.
* Attribute maps are association lists with unique keys (Go map assignment).
* `strconv.ParseFloat`, `strings.ToLower` on non-ASCII text, `sort.Slice`,
  `encoding/xml` (used by `@pretty`) and user-registered modifiers are fields of
  `env`. Floating point numbers are `spec_float`.
* `strings.TrimSpace`, UTF-8 decoding, `strconv.Quote`, `strconv.Atoi` and
  `strconv.FormatInt` are modelled exactly.
* The path cache and the modifier registry are state machines whose atomic steps are
  the lock-protected regions of the Go code; schedules are arbitrary lists of steps.
  Cached segment slices live in a heap so that sharing between callers is observable.

## 3. Files

| file | contents |
|---|---|
| `GoStr.v` | byte strings and the Go standard-library string functions |
| `ModelParser.v` | parser.go |
| `ModelPattern.v` | internal/pattern/match.go |
| `ModelPath.v` | path.go, the filter syntax of filter.go, parseModifiers |
| `ModelResult.v` | result.go (type and accessors), modifier.go (built-in modifiers, chains) |
| `ModelQuery.v` | get.go with default options, filter evaluation of filter.go |
| `ModelQueryOpts.v` | the WithOptions variants of get.go |
| `ModelWork.v` | the evaluation of get.go with default options again, counting the calls of recursiveSearchWithContext; proved to give the same answers as `ModelQuery.v` (C80_count) |
| `ModelLoad.v` | the same evaluation once more, counting passes over texts and the elements found in them; proved to give the same answers (C82_count) |
| `ModelLoadOpts.v` | the same count for queries under options; proved to give the same answers (C84_count) |
| `ModelToil.v` | the edits once more, counting passes over texts and the elements found in them; proved to have the same results (C83_count) |
| `ModelBatch.v` | SetMany and DeleteMany once more, counting like ModelToil.v; proved to have the same results (C95_count) |
| `ModelValidate.v` | validate.go |
| `ModelBuilder.v` | builder.go, options.go and the editing API of set.go |
| `ModelPretty.v` | the part of `@pretty` that is in modifier.go |
| `ModelApi.v` | the methods of Result that query again (Get, GetMany, Map, ...) |
| `ModelConc.v` | path cache and modifier registry under interleaving |
| `ModelRace.v` | the same shared state step by step: lock operations, map accesses and element copies of parsePath (path.go:124-158) and of the registry functions (modifier.go:94-131) under every interleaving; sync.RWMutex as a writer flag and a count of readers |
| `SpecText`, `SpecGlob`, `SpecPath`, `SpecApi`, `SpecFilter` | predefined references, glob semantics, writing paths, batch operations, meaning of comparisons |
| `SpecTree`, `SpecQuery` | element forests, their serialisation, plain queries on trees |
| `SpecEdit`, `SpecContent`, `SpecHistory` | edits of trees, new contents, sequences of edits |
| `SpecValid`, `SpecRaw` | grammar of valid documents, grammar of raw fragments |
| `SpecMod` | laws of modifiers, `@ugly`, array rendering |
| `SpecLang`, `SpecBound` | the full query language and its meaning on trees, multiplying steps |
| `SpecCase`, `SpecWhole`, `SpecNotation`, `SpecOptions`, `SpecFluent`, `SpecFault`, `SpecGrammar`, `SpecError`, `SpecScan`, `SpecAnswer`, `SpecOutcome`, `SpecPretty` | meaning of case-insensitive queries, modifiers on whole answers, the ways to write tags, edits under options, queries on results, reports of the validator, the language of paths, the reasons for refusing edits, elements of any text, answers on any text, outcomes of edits on any document, pretty-printing |
| `ProofBase` ... `ProofNotation` | proofs, one group per `Spec` file |
| `PropText`, `PropPath`, `PropTotal`, `PropSyntax`, `PropConc`, `PropApi`, `PropFilter`, `PropTree`, `PropEdit`, `PropValid`, `PropHistory`, `PropMod`, `PropRaw`, `PropLang`, `PropBound`, `PropCase`, `PropWhole`, `PropNotation` | the theorems, each with a concrete example and `Print Assumptions` |

## 4. Canonical documents

Most theorems about Get, Set and Delete speak about *canonical* documents: the
serialisation `p ++ forest_text F` of a prolog `p` (declaration, comments, DOCTYPE)
and a forest `F` of elements, texts and comments/instructions. Attribute values are
in double quotes with the five references, one space stands before every attribute,
none inside end tags. Element names, attribute names and texts are otherwise
arbitrary (`good`). Where a statement is false outside this class, a `_refuted`
theorem exhibits a document on which the modelled code misbehaves.

C60 extends the theorems about Get and Valid to every notation of the tags: `written_all
F x` relates a forest to all texts that differ in quotes, references and white space
inside tags. It cannot be extended to edits, and says why.

Theorems about termination, panics of Get, the validator, SetRaw's validator, failed
edits, result bounds, paths, conditions, the matcher, modifiers, options and the
shared state hold for all byte strings.


## 5. Per property: what is modelled and how it is proved

* **C01** Text escaping is lossless and inert (PropText.v; proved). escapeXML and unescapeXML against a relation defining references; induction on bytes.
* **C02** Get after Set returns the value that was set (PropEdit.v, PropFaults.v; proved). The scanner run on a serialised forest enumerates its elements; the location found by Set and the one found by Get are both the tree location. Limits: Canonical documents, plain paths that Get follows like Set (indexes below 1000, a leading indexed name written like the root); refuted for self-closing targets.
* **C03** Set touches only the content of its target (PropEdit.v; proved). Exact result bytes: the document is split at the target's tags by the tree location. Limits: Exact bytes of the result, for string values and for any other value kind; refuted when a closing tag contains white space.
* **C04** Set creates a missing element under its nearest existing ancestor (PropEdit.v, PropFaults.v; proved). As C03 for the deepest existing ancestor; the inserted chain is a serialised tree. Limits: Below an existing ancestor (self-closing or not), as a further root, and in the empty document; a missing index writes an element without a name.
* **C05** Setting an attribute is read back and leaves other attributes alone (PropEdit.v; proved). The start tag is rebuilt from the attribute map; the result is the serialisation of the tree with the attribute set, up to attribute order. Limits: Existing elements, and creation of missing elements with the attribute; the order of the rewritten attributes is not claimed.
* **C06** Delete removes exactly the first match (PropEdit.v, PropSize.v; proved). Exact result bytes from the tree location. Limits: Exact bytes for elements and attributes; the two limits of the statement are refuted instances.
* **C07** Deleting an absent path is a successful no-op (PropApi.v, PropEdit.v; proved). Simulation between the element search of Get and the byte search of Delete on any valid document. Limits: Any valid document with paths of names optionally ending in an attribute (map iteration order not changing between Get and Delete); canonical documents with any plain path and any order; refuted for paths with an index on other documents.
* **C08** Append adds exactly one element after the last match (PropEdit.v; proved). Location of the last match by induction on siblings. Limits: Exact bytes, value under the next index and count, for a parent with two tags, a self-closing parent and the top level.
* **C09** A failed mutation returns the input unchanged (PropApi.v; proved). Case analysis of the API functions.
* **C10** SetMany is sequential Set and all-or-nothing (PropApi.v; proved). Induction on the list of edits.
* **C11** DeleteMany is sequential Delete over the distinct paths and all-or-nothing (PropApi.v; proved). Induction on the list of paths.
* **C12** Setting nil is deleting (PropApi.v; proved). Unfolding both entry points.
* **C13** Mutators refuse malformed and oversize documents (PropApi.v, PropDocs.v; proved). Case analysis.
* **C14** No public operation panics (PropGrammar.v, PropHistory.v, PropTotal.v; proved). Panic outcomes are explicit; Get characterised exactly by an induction over the query functions, edits by the tree location lemmas, refutations by computation. Limits: The promised absence of panics is refuted for Get, Set and Delete. Get is characterised exactly; Set and Delete return on canonical documents.
* **C15** Every query terminates (PropTotal.v; proved). Every function with fuel is shown to consume input or path; fuel of the entry points suffices.
* **C16** Valid accepts only documents with properly nested tags (PropValid.v; proved). The validator accepts exactly the words of an inductive grammar: soundness by induction on the run, completeness by induction on derivations.
* **C17** Valid accepts every canonical document within the limits (PropValid.v; proved). Serialised forests are in the grammar.
* **C18** Valid enforces the depth and size limits (PropValid.v; proved). Grammar derivations bound the depth.
* **C19** Validation errors carry a real position (PropValid.v; proved). Line and column are a function of the consumed prefix.
* **C20** SetRaw refuses declarations and unbalanced fragments (PropRaw.v; proved). validateRawXML accepts exactly an inductive grammar. Limits: SetRaw takes exactly the fragments of an inductive grammar; behind any canonical forest, at any depth, declarations and unbalanced tags are refused. Lower-case declarations and a cut-off end tag are accepted (refuted instances).
* **C21** Set keeps a document valid (PropHistory.v, PropSize.v; proved). The edited tree is again canonical, hence in the grammar of C16. Limits: Canonical documents and edits by plain paths; the general statement is refuted.
* **C22** Escaped dots split and join faithfully (PropPath.v, PropSyntax.v; proved). Induction on the path text.
* **C23** Over-long paths are refused (PropPath.v; proved). Segments are counted by unescaped dots.
* **C24** The path cache is transparent under every schedule (PropConc.v; proved). Invariant of the transition system: cache entries are parses; heap cells handed out are private copies.
* **C25** The path cache stays bounded (PropConc.v; proved). Invariant.
* **C26** Namespace prefixes: unprefixed steps match any prefix, prefixed steps match exactly (PropPath.v; proved). Characterisation of the name test.
* **C27** Case-insensitive matching is ASCII case folding (PropPath.v; proved). Characterisation of the folded name test.
* **C28** Get on a canonical document is the tree query (PropDocs.v, PropFaults.v, PropNotation.v, PropTree.v; proved). Refinement of the query functions by a walk over the tree, for every oracle. Limits: Map order: any permutation, different for every call. Text and CDATA with angle brackets are excluded: the library drops or reinterprets them (refuted instances).
* **C29** Counts and indexes agree (PropTree.v; proved). From C28.
* **C30** A wildcard lists the children in document order (PropDocs.v, PropTree.v; proved). From the refinement lemma for wildcards.
* **C31** Result counts are bounded (PropBound.v; proved). Induction over all query functions: the length of every result list is bounded by the multiplying steps left. Limits: Arbitrary documents and options; paths without modifiers. With k multiplying steps the bound is 1000^k, and two wildcards do exceed 1000 (refuted instance); when case does not count it is 100 * 1000^k, and one wildcard does exceed 1000 (refuted instance).
* **C32** #(cond) is the first element of #(cond)# (PropFilter.v; proved). Both forms share the list of matches; induction over the query. Limits: First-of-all for every path of plain names; the exact selection for top-level elements, with a map iteration order that does not change between calls.
* **C33** Pattern filters implement glob matching (PropPath.v; proved). Invariant of the dynamic programme against inductive glob semantics.
* **C34** Numeric comparisons never hold on non-numbers (PropFilter.v; proved). Case analysis with an abstract number parser. Limits: strconv.ParseFloat is a parameter.
* **C35** Modifiers apply left to right (PropMod.v; proved). Induction on chains; simulation of queries with and without modifiers. Limits: Any chain, registry and result; through Get for paths of names ending in a name, attribute, text, index or count, with the modifier-free chain semantics. Modifiers are ignored in one fragment-root branch: refuted instance.
* **C36** Laws of the built-in modifiers (PropMod.v; proved). List lemmas. Limits: sort.Slice is a parameter assumed to return an ordered permutation; the comparison is the modelled one, with no NaN among the keys.
* **C37** Built-in modifiers can never be removed or replaced (PropConc.v; proved). Invariant over histories.
* **C38** The API variants agree (PropApi.v; proved). Simulation of the options variants by the default ones.
* **C39** Result accessors are consistent (PropFluent.v, PropMod.v; proved). Case analysis. Limits: Any result, callback and callback state.
* **C40** Map groups the child elements by name in document order (PropTree.v; proved). Scanner lemmas and grouping by name.
* **C41** Get ignores documents above the size limit (PropApi.v, PropDocs.v; proved). Unfolding.
* **C42** Prologs and comments do not influence queries (PropFaults.v, PropNotation.v, PropTree.v; proved). Scanner lemmas for prologs. Limits: Comments with end tags and processing instructions inside elements do have an influence (refuted instances).
* **C43** Answers do not depend on map iteration order (PropEdit.v, PropFrag.v, PropLang.v, PropTree.v; proved). Both answers are read off the same tree.
* **C44** Chained queries agree with the full path (PropTree.v; proved). From C28.
* **C45** @ugly removes only white space outside tags and CDATA (PropDocs.v, PropMod.v; proved). Induction with the state of the copying loop. Limits: Any byte string; exact effect on texts cut into tags, CDATA and character data. Words of text run together: refuted instance.
* **C46** String() of an array can be decoded (PropMod.v; proved). A decoder is shown to invert quoting, by induction on code points. Limits: Well-formed UTF-8 entries; with invalid bytes two lists can have one text: refuted instance.
* **C47** Edits compose: any history of edits on a canonical document acts like tree edits (PropHistory.v, PropTable.v; proved). Induction on the history: the invariant is that the document is the serialisation of a good tree. Limits: Any sequence of content (text, integer, truth value, raw forest), attribute, append and removal edits, including creation of missing elements; queries afterwards answer from the edited tree.
* **C48** Index strings denote their decimal value (PropSyntax.v; proved). Value of numerals.
* **C49** Index intents for mutation are classified correctly (PropEdit.v, PropError.v, PropSyntax.v; proved). Characterisation of the index scan.
* **C50** Filter conditions parse into path, operator and literal (PropSyntax.v; proved). Parser of conditions on written conditions; shape of everything accepted.
* **C51** Only case sensitivity influences queries with options (PropApi.v; proved). Simulation.
* **C52** SetRaw inserts the fragment's tree (PropRaw.v; proved). Exact result bytes; the fragment's tree is spliced into the tree. Limits: Exact bytes for any accepted fragment; for canonical fragments the result is valid and queries answer from the new tree. Into attributes raw text goes unescaped (refuted instance).
* **C53** Integers and booleans survive a round trip (PropRaw.v; proved). Decimal notation is parsed back. Limits: All documents and paths for the reduction to text; read-back on canonical documents.
* **C54** The query language has a tree semantics (PropLang.v; proved). Refinement of every query function (children, conditions, wildcards, recursive search, fields) by a denotational meaning on trees, for every oracle. Limits: Canonical documents with at most 100 levels and fewer than 9999 elements; the meaning of conditions is a relation, shown decidable.
* **C55** A recursive search finds every element with the name (PropLang.v; proved). Instance of C54; the meaning of ** is post-order and complete.
* **C56** A condition selects exactly the children that satisfy it (PropLang.v; proved). Instance of C54.
* **C57** Field extraction lists the fields in document order (PropFaults.v, PropLang.v; proved). Instance of C54.
* **C58** Case-insensitive queries walk the tree with folded names (PropCase.v; proved). Refinement of the options variants of the query functions by a denotational meaning with folded names.
* **C59** Modifiers at the end of a query act on the whole answer (PropWhole.v; proved). Simulation between the evaluation of a path with and without modifiers on its last segment, by induction over fuel; composed with C54 for the meaning on trees. Limits: Where several elements are chosen before the last step, or by **, the library applies modifiers to the entries, twice, or not at all (refuted instances).
* **C60** How tags are written has no influence on queries (PropNotation.v; proved). The scanner shows the same elements for every notation, which is all that the proofs of C28, C54, C58 and C59 use about a document; derivations of the validator grammar by induction on the notation. Limits: Text without angle brackets; comments and CDATA without angle brackets. The corresponding claim about edits is false (two refuted instances).
* **C61** Edits under options (PropOptions.v; proved). The lemmas of C02-C08 about locating, replacing, creating and appending, redone for names compared by a function of the options; tree of the result; read back by C58. Limits: Canonical documents. New names are written in lower case without CaseSensitive (refuted instance). An element written with a self-closing tag gets its text behind the tag, as without options.
* **C62** Queries on results (PropFluent.v; proved). What a query finds lies in the tree, by induction on queries; the raw text of a result is a canonical serialisation, so C54 and C58 apply to it, directly or inside the wrapper element. Limits: Queries on results must not begin with a condition (refuted instance); the document leaves room for the 29 bytes of the wrapper.
* **C63** Validation reports name the first fault and its place (PropFault.v; proved). SpecFault defines the first fault of a document and the text from the reported place on (`first_fault`), rule by rule like the grammar of SpecValid; C63_exact shows that the reports of the model are exactly these, with line and column counted from the text before. C63_unclosed, C63_mismatch and C63_outside say the same for documents that are canonical up to the fault, with any number of open elements. Limits: Exact characterisation of all reports; message texts are reduced to constructors, one per kind of message.
* **C64** Every text given as a path has one meaning (PropGrammar.v; proved). `SpecGrammar` describes the language of paths by inductive relations (`cuts`, `barred`, `named`, `divided`, `condition`, `head`, `steps_of`, `extracted`, `path_means`) that share no function with the parser except TrimSpace. ProofGrammar/2 prove by induction on the text that the relations are total and functional and that `parse_path` computes them. Crashes of Get are exactly the fatal paths; equal meanings give equal answers (independence of the recursion bound from ProofMono) and equal edits. Limits: Complete grammar of paths as inductive relations, proved total, functional and computed by the parser; consequences for Get, GetWithOptions, Set and Delete.
* **C65** The error an edit reports tells its reason (PropError.v; proved). `SpecError` names the reasons in terms of `path_means` and `accepted_document`. ProofError follows each edit through its checks; the cases are exhaustive by C64. The remaining ErrMalformedXML of createInRoot is tied to documents in which Get("*") finds nothing; `<!Doctype [><r/>` is one that Valid accepts (C65_malformed_refuted). Limits: Exact for Delete and for Set on paths that do not end in an attribute; for attribute paths: never ErrInvalidValue, and ErrInvalidPath for a lone attribute. C65_malformed_refuted shows a document accepted by Valid that Set calls malformed.
* **C66** What is recognised as an element in any text (PropScan.v; proved). `SpecScan` describes tokens, attributes, tags, skipped regions and contents by inductive relations (`cut`, `gap`, `attributes`, `settled`, `tag`, `doctype_rest`, `comment_rest`, `leads`, `inner`, `sees`) on the text alone. ProofSight/2/3 prove by induction on the text that the scanner computes them (`scan_sees`) and that they are functional up to the order of attributes (`sees_det`). Limits: Complete description of the scanner as inductive relations, proved total, functional up to attribute order, and computed by the scanner; wildcard query as consequence.
* **C67** The answer to every query on every text (PropAnswer.v; proved). `SpecAnswer` describes answers by inductive relations (`answer`, with `search`, `sifted`, `spread`, `numbered`, `fields`, ...) over the elements a text shows and the steps a path means; `chars` describes text. ProofAnswer proves text and element results, ProofAnswer2 the name, attribute, condition and field rules, ProofAnswer3 the plain engine and ProofAnswer4 the engine with options by induction on fuel, ProofAnswer5 uniqueness by inversion of two derivations. Limits: Complete description of the query engine on arbitrary texts as an inductive relation on the elements seen (C66) and the steps meant (C64); proved for Get and GetWithOptions, and proved unique when attributes have a fixed order and names are compared as written.
* **C68** The outcome of every edit on every document (PropOutcome.v; proved). `SpecOutcome` describes editing by inductive relations (`lies` for the place a path leads to, `spliced`, `built`, `created`, `appended`, `attributed`, `set_outcome`, `delete_outcome`). ProofOutcome proves finding and building, ProofOutcome2 creation, appending, attributes and the two operations by cases on the model, ProofOutcome3 uniqueness by inversion of two derivations. Limits: Complete description of editing on arbitrary accepted documents as inductive relations over the elements seen (C66) and the steps meant (C64), including the places where positions found in normalised content are used in the document as written; proved for SetWithOptions and DeleteBytesWithOptions and proved unique when attributes have a fixed order.
* **C69** Pretty-printing (PropPretty.v; proved). `SpecPretty` says what each attribute means (`says_of`), when two are duplicates and which are kept (`firsts`). ProofPretty shows that the text keys of the model decide exactly this when names are decent (splitting the keys at the first equals sign or the last colon), that the loop keeps `firsts`, and that `retold` is functional. Limits: The decoder and encoder of encoding/xml are parameters. C69_collision_refuted: the keys of deduplication collide for unusual namespace URIs, so that an attribute that duplicates nothing is lost; the positive theorem therefore excludes namespaces that begin with xmlns.
* **C70** The text of a validation error (PropMessage.v; proved). The messages of `ModelValidate` carry the names, the delimiter and the suffix where the open tag starts; `ModelMessage` prints them. `SpecMessage.worded` gives the sentence for each fault of `SpecFault`. An invariant over `fault` shows that every entry of the stack of open tags is a suffix of the document that begins with that tag. Limits: Complete: C70_report and C70_text are equivalences. The sentences themselves are constants of both model and specification.
* **C71** Edits keep the notation of a document (PropLaid.v; proved). `SpecLaid.laid_all` gives the texts, `standing` the place of the designated element. `ProofLaid2`–`ProofLaid3` show that the positions the editor computes are the real ones (an error in the start tag of a top-level element cancels, one below does not); `ProofLaid4`–`ProofLaid6` redo every edit on such texts and carry `laid_all` through histories. Limits: Generalises C47 and the splice theorems from canonical texts. The refuted cases show what shifts when end tags have white space or tags below the root have another length.
* **C72** Texts of edit errors (PropComplaint.v; proved). `ModelErrText` repeats the control flow of the editing functions with texts; `ProofComplaint2` shows that forgetting the texts gives the functions of `ModelBuilder`. `SpecComplaint.set_says` lists the reasons in terms of the outcomes of C68, `objection` those of raw content in terms of the grammar of C20; `ProofComplaint` and `ProofComplaint3` show agreement, uniqueness and completeness. Limits: The functions with texts are shown to return the same documents and kinds of errors as the functions of all other theorems (C72_kinds). C72_set holds for every order of map iteration; C72_only, the converse, when attributes are always listed in the same order.
* **C73** Edits are independent of each other and of unrelated queries (PropFrame.v; proved). `SpecFrame` says when a query avoids an edit (`aside`), when two edits are at different places (`exclusive`), when one makes another pointless (`overrides`) and when an edit asks for what is the case (`already`). The proofs are on trees (`apply_frame`, `apply_commute`, `apply_override`, `apply_already`) and reach the calls through the history theorem (C47) and the query language theorem (C54). Limits: Three refuted theorems show why the hypotheses are needed: lists of fields turn from Null into an empty list where a parent is created, two created elements stand in the order of the calls, and removals by number are not independent.
* **C74** Numbers in documents are compared, sorted and converted by their decimal values (PropNumber.v; proved). `SpecNumber` gives decimal texts their rational values (`numeral`), float64 numbers theirs (`float_value`) and says what rounding to the nearest is. `ProofNumber` shows that the order of float64 numbers is the order of their values and that rounding keeps the order; `ProofNumber2` finds two float64 numbers between any two decimals of at most 15 digits and rounds rationals; `ProofNumber3` reads decimal texts and connects with the conditions of C34; `ProofNumber4` with the queries of C56 and the sorting of C36. Limits: strconv.ParseFloat is a parameter; the theorems assume of it that a decimal text in range gives a nearest float64 that depends on the value only, and one out of range an error. A function with this contract is constructed (C74_contract). Of fmt.Sprintf("%g") it is assumed that ParseFloat reads the text of a float64 back (C74_printing_contract constructs such a function; float32 values are outside). Exponents of 10000 and more are outside the claim, since ParseFloat stops reading their digits. Refuted: longer integers are not told apart (C74_long_refuted), a number beyond the range is not <= itself (C74_huge_refuted).
* **C75** The library may be used from many goroutines at once (PropRace.v; proved). `ModelRace` splits parsePath and the registry functions into single lock operations, map accesses and element copies; `SpecRace` says what a goroutine may access next, what a race is and what it means that calls take effect one after the other. C75_writes and C75_reads show that the accesses are listed completely. Invariants: who holds the lock (`ProofRace`), who owns which slice, cached slices are complete and never written; a rank that every step decreases (`ProofRace2`); a history with moments of effect grown along with the run (`ProofRace3`). `ProofName`-`ProofName3` follow the modifier names from the path through the query. Limits: Assumed of Go: sync.RWMutex excludes as modelled, and a program without data races is sequentially consistent (the Go memory model). The absence of races is proved of sequentially consistent executions, which is what that guarantee asks for. The other package variables are never written (error values, two strings.Replacers, which are safe for concurrent use); everything else is local to a call. A query is modelled with one view of the registry; what a query does while a name it mentions is being registered is outside the claim.
* **C76** Every ordinary document is one tree, and queries are answered from it (PropPlain.v; proved). `SpecPlain` describes ordinary documents as a grammar on bytes and plain bytes by what stands between `<` and the next `>`. From bytes to a tree: induction on the grammar with the unfinished contents of all open elements; uniqueness: mutual induction on the ways to write a tree, with the parser deciding start tags; neat bytes have the lengths of the canonical text, so C71 applies; plain bytes: induction on the accepted documents of C17. Limits: Ordinary documents may have `>` in quoted attribute values; the simpler description by plain bytes excludes it. C76_get needs fewer than 9999 `<` (the limit on elements for `**`).
* **C77** The type of an answer can be read off the path (PropShape.v; proved). `SpecShape.kinds_of` reads the possible types off the steps of a path (C64) and their modifiers. Soundness: induction on the depth of the answer relation of C67, with the search by mutual induction; liveness: a specimen document built from the query, on which the answer of C54 is computed by induction on the steps. Limits: C77_promised and C77_all_named list documented examples that no document answers as documented; C77_reverse_refuted is a concrete one. C77_live needs the specimen document to be below the limits (fewer than 9999 elements, 10 MiB).
* **C78** Values are data (PropInert.v; proved). Every function of builder.go that writes the value is shown uniform in it: its result is constant or a template filled with the text (build_path, replaceElement, replaceAttribute, createElement, append). find_loc never returns a content start of 0, so a filled template is never empty and getResult never falls back to the old document. Limits: Texts over 5 MiB are refused by Set (C13). nil deletes. Bytes are markup by intention (C78_bytes_refuted).
* **C79** Answers are bounded on every text (PropModest.v; proved). Induction over the answers of C67 for any property of single values (answers_proper), with bounds for tokens, attribute lists and text from the relations of C66; determinism of sight (C66_one_sight) joins the attribute queries. Limits: Six promises of docs/security.md about what happens beyond the limits are refuted: excess attributes and the rest of an over-long value become text, entities stay in the text, elements deeper than 100 levels are found, and white space around a condition may contain control characters.
* **C80** The work of a query (PropWork.v; proved). A counting copy of the evaluation (ModelWork) is proved to give Get's answers (C80_count). Upper bounds by induction over the evaluation, with the number of `<` as a measure that is additive over the elements seen by the scanner (sees_weight). The lower bound is an induction over Pascal's triangle on nested elements. Limits: The documented bound (search stops after 10,000 operations) is refuted for paths with several `**`: C80_limit_refuted gives a valid document of 700 bytes and a path of 249 bytes that take more than 10^29 operations, since every search below another starts a new count. Queries under options are counted for C84.
* **C81** Fragments put together (PropFrag.v; proved). Acceptance is closed under concatenation (accepted_app). The scanner's view of a ++ b is the view of a followed by the view of b, since elements are keyed by the remaining text (scan_app); answers of first matches and of indices are stable when elements are appended, and unaffected by elements that do not match. Limits: C81_found leaves out the bare count at the top (`name.#`), which C81_count states: there the numbers add up (up to 1000).
* **C82** The work of a query grows linearly with the document (PropLoad.v; proved). A counting copy of the evaluation (ModelLoad) is proved to give Get's answers (C82_count). The bound is an induction over the evaluation with the number of `<` as measure, which is additive over the elements of one pass (sees_weight of C80), and a relation that assigns its effort to every path; that it always exists and is bounded by the length of the path is an induction over the size of paths including their conditions. Limits: The count is of elements and passes, not of seconds or bytes: contents are rewritten when they are extracted, so their length is not bounded by the document's, but the number of `<` is.
* **C83** The work of an edit grows linearly with the document (PropToil.v; proved). A counting copy of the edits (ModelToil) is proved to do what SetWithOptions and DeleteBytesWithOptions do (C83_count). Locating is bounded by induction over the path with the number of `<` as measure; for attributes of elements still to be created, the `<` of the document written in between are bounded by those of the given document, of the name and attributes of the element reopened and of the path. Limits: The count is of elements and passes over texts when locating and creating elements. Checking that the document is well-formed, parsing the path, converting the value and copying the document are not counted; each is one pass over its input.
* **C84** The work of a query under options grows linearly with the document (PropLoadOpts.v; proved). A counting copy of the evaluation under options (ModelLoadOpts) is proved to answer what GetWithOptions answers (C84_count). The bound is by induction over the recursion of the evaluator with the number of `<` as measure; conditions are evaluated without options, for which C82 is used. Limits: As for C82, the count is of elements and passes, not of seconds or bytes.
* **C85** Markup inside comments is invisible to queries (PropHidden.v; proved). The scanner is proved to skip a comment with markup on every level and to carry it, with attributes possibly reordered, through the rewriting of contents (ProofHidden); the walk of C37 and C54 is then repeated on such documents (ProofHidden2, ProofHidden3). The answers name elements only by their children, so that the text of elements without such comments is as in C37. Limits: Comments are decompositions of their text into elements with end tags and texts without `<`; a comment with an unmatched tag is refused by Valid or misread (C42_comment_refuted). C85_text_refuted: text of the comment turns up in String().
* **C86** Edits pass over markup inside comments (PropHidden2.v; proved). Location of elements by offsets is proved on documents with such comments by the induction of C02-C08 with the scanner lemmas of C85 (ProofHidden4); the calls, validity of the results and the induction over sequences follow C47 (ProofHidden5). Limits: Comments as in C85, for the sequences also without double hyphens inside (the validator's rule). C86_attribute_refuted: `>` inside an attribute value.
* **C87** Lists kept in a document (PropList.v; proved). Induction over the list of contents (or the number of deletions): every call is the exact call of C08 and C06 on the tree reached so far, and the place behind the last element of the name moves with the entries (ProofList). Limits: For parents with a start and an end tag; self-closing parents are in C08_append_self_closing.
* **C88** A document used as a table (PropTable.v; proved). Data refinement: the rows of the tree reached are those of the abstract table (invariant over the sequence, ProofTable.table_step and table_history); sizes and numbers of elements are bounded by a common measure (ProofTable2.op_room); the answers are those of C54 on the tree, computed on rows (ProofTable, section Ask). Limits: The element is reached by names each borne by one child (otherwise a lookup that fails goes on in later elements of the name); values are read without white space at their ends; Get looks at the first 1000 rows.
* **C89** Sessions of edits under different options (PropSession.v; proved). Induction over the sequence with the invariant that the document is the text of a good tree up to the order of attributes (ProofSession3.session_ok): each call is one of the cases of C61 at the place the edit of the tree designates (ProofSession, ProofSession2). Layout: the edits commute with removing blank text nodes (ProofSession4.apply_tidy), and attribute and count queries do not see them (query_tidy). Limits: Contents are texts; the queries without CaseSensitive are asked of trees without siblings of attributes that differ in case only (apart), as in C58.
* **C90** What follows the answer has no influence (PropTail.v; proved). The content loop is followed in continuation style: on a text that begins with good nodes or with the start tag of an enclosing element it writes the same beginning, up to the order of attributes, and then whatever it makes of the rest (ProofTail.leads_contents); so each enclosing element's content again leads to the element, and the first (or indexed) match is found before the rest (exec_leads, induction over the path). Limits: Paths of names and indexes; the first step has no index (at the top level an index compares names literally). Refuted: C90_open (an element left open), C90_before (damage before the element), C90_count (counts of siblings).
* **C91** Copying elements with Raw and SetRaw (PropCopy.v; proved). Raw is the text of a tree equal to the children up to the order of attributes (ProofTail.get_leads), such a text passes the check of fragments (ProofRaw2.forest_fragment), C52 gives the new text, and both documents lead to elements with equal children (ProofCopy.located_leads), so C90's lemma answers both queries. Limits: Refuted: C91_attributes (attributes of the element itself), C91_comment (a valid document with `<` inside a comment: Raw loses bytes and the copy is written over a start tag).
* **C92** Truncated and concatenated documents (PropCut.v; proved). An accepted text leads the validator's loop to one state, with no open element and a closed root (ProofCut.after_passes), so what is reported afterwards depends on the rest only. For cuts: the pieces of markup are determined by the text (hop_det), so an accepted text that begins like a canonical node inside an open element contains the whole node (over_node), and an outermost element is taken whole or not at all (cut_element). Limits: Refuted: C92_between (a cut between two root elements goes unnoticed).
* **C93** A document as a store of values under paths (PropStore.v; proved). A document stores a map when every key is held by one element (sole, SpecTable) or by none (absent). One operation acts on the element of its key or builds the missing chain (absent_made, sole_gone), and the walk to it never touches the element of another key (others, by induction on the first key, using that names without prefix select disjoint sets of elements). The calls follow by C47_history. Limits: Refuted: C93_nested (setting a key that leads to another one wipes the other out).
* **C94** The content of an element is a document of its own (PropPart.v; proved). An edit below a pinned element changes the content of that element only and leaves it pinned (pinned_change, pinned_at, pinned_apply), so the two histories stay in step (pinned_history) and the query on the whole walks straight to the content (pinned_query); results with the same denotation are alike (denotes_alike). Wrapping: the validator's run on a valid text is repeated on top of a non-empty stack (inside_passes). Limits: Refuted: C94_prefix (a count at the beginning of a path takes prefixed names literally, below an element it does not).
* **C95** The work of batches of edits (PropBatch.v; proved). The counting versions of the loops erase to the loops of the model (erase_set_many, erase_delete_many) and unfold to sums of single calls (set_each_sums, delete_each_sums). A deletion leaves a text with at most as many `<` (delete_mono), which with C83_delete bounds the sum. For appends, each call scans the content of the parent, whose elements are all found (scanned_len, append_cost); the induction follows the states of C87. Limits: Refuted: C95_once (docs/performance.md:138, batches parse the XML once).
* **C96** A size budget for sequences of edits (PropBudget.v; proved). The length with all elements written with two tags is a potential: opening a self-closing element does not change it, and every edit adds at most its allowance (edit_nth_full, change_full, apply_full). So the room each step of C47 needs follows from the budget (leads_history). The operations of the store are always defined as long as an attribute can be added (op_defined, store_most, store_leads). Limits: What happens beyond the limit is C21_outgrown and C21_limit_refuted.
* **C97** Any element can be turned into any other of its name (PropScript.v; proved). The located element stays located under each edit of the script (step_located, removals, settings); after the removals its attributes are among the wanted ones, so setting them all gives a permutation of the wanted list (put_all_perm) and never more than 100. The budget of C96 gives the room for C47_history, and located_order puts the attributes in the wanted order. From nothing, create_root is the first call and settings_root the others. Limits: Self-closing elements need the extra first call, since a Set on them inserts beside, not inside (C02_self_closing_refuted).
* **C98** Loops over numbered elements (PropLoop.v; proved). Invariants over the rounds: the children are those already treated followed by those still as they were, and the number of the round is the count of the name among the former (update_from), or the children before the number are untouched (sweep_from). Each round is item_read followed by update_one or delete_one on the located parent. Limits: At most 1000 elements, since counts and numbers end there (C31); for updates the elements have two tags (C02_self_closing_refuted).
* **C99** A document as a queue (PropQueue.v; proved). Invariant over the operations (queue_runs): the children of the name in the located parent say the entries of the list, in order, and each step of the path still has one match; push_one, take_one, take_last and take_none are one operation each; query_sole gives the missing answer of an empty list. Limits: At most 1000 entries, since counts and numbers end there (C31).
* **C100** Characters and white space are those of Unicode (PropUnicode.v; proved). decode_utf8 and decode_cases show that decoding inverts the encoding and that the error case has no encoding; runes_iff follows by induction on the length. For trimming, trim_left_ok and trim_rev_ok find the white characters taken away; start_stays uses that a continuation byte never begins a white character. Limits: The functions of Go's library (strings.TrimSpace, conversion to runes) are modelled in GoStr.v; the theorems show that the model of them is what the Unicode standard and RFC 3629 say, so that all statements with trim_space and runes can be read with trimmed and reads_chars.
* **C101** The entries of a list can be put into any order (PropOrder.v; proved). kept relates the document to the list of contents (up to the order of attributes, which Raw does not keep); exchange_ok and to_end_ok keep it and the size; moves_ok is an induction on the operations. sink_ok and sort_from_ok show that the program computes an insertion sort of the contents, whose laws (sort_perm, sort_sorted, sort_stable) are proved on lists. Limits: Refuted for entries with a single tag: SetRaw puts the content after the tag, beside the entry, without an error (C101_self_closing_refuted); the attributes of entries stay (C101_attributes_refuted).
* **C102** Edits can be taken back (PropUndo.v; proved). undo_one: each kind of edit followed by its counterpart gives the tree back (swapped_twice: one place replaced twice; back_below: a change below a place and its reverse), exactly or up to the order of attributes. rollback_ok is an induction on the journal with history_ok for each undoing call; same_few shows that with at most one attribute the trees are equal. Limits: Deleting an element is not among the edits that can be taken back (an element can only be put back behind the last of its name). Refuted: the order of several attributes is not restored (C102_attributes_refuted), and a self-closing element does not become self-closing again (C102_self_closing_refuted).
* **C103** Entries go from one list to another and none is lost or doubled (PropLanes.v; proved). lane_add and lane_drop give the exact document after a call in one list and the lists the board then shows (board_place: names no element shares keep the other lists); hand_over_ok puts read_list before them and shows that the document does not grow, so that hand_over_all_ok is an induction on the moves. C103_conserved and C103_drain are proved on lists of any type (transferred_perm, drain_lists). Limits: The lists are written with two tags in the theorem. Refuted: the attributes of an entry do not move with it (C103_attributes_refuted).
* **C104** Numbers kept in a document add up (PropCount.v, PropLedger.v; proved). Postings are turned into store operations with the sums as contents (writings); by induction from the end of the sequence, the store theorem C93 gives the number the next Get reads, so that the program makes just these calls (posts_ok). That all intermediate documents fit is shown with a reserve of twenty digits and the tags per account, which every write uses up by at most what the document grows (give_size, sole_full). Limits: Refuted: numbers with a fraction (C104_fraction_refuted) and numbers beyond int64 (C104_overflow_refuted) silently count as zero.
* **C105** The work of validation grows linearly with the document (PropCheck.v; proved). Counted copies of the functions of ModelValidate.v; for each, the count is bounded by a multiple of the bytes it consumed plus a constant that the next consumed byte pays for; induction over the loop. The lower bound and the tightness are by induction in the same way. Limits: The count is of bytes looked at (ModelCheck.v says of each function what counts); the text of the error message is not counted.
* **C106** A document can be copied value by value (PropFill.v; proved). By induction over the data, the edits of a subtree lead from any forest without its name to that forest with the subtree at its end (script_grows): the first edit makes the way down to the first text, the others happen inside the last element (lift), the attributes come at the end; no intermediate forest is larger than the last. The calls are those of C04 for the first value and C47 for the others; what Get reads from the old document follows from C28 and the uniqueness of names (script_tells). Limits: Refuted: white space around texts (C106_blanks_refuted), siblings of the same name (C106_repeated_refuted).
* **C107** Documents can be laid over one another (PropLayer.v; proved). What Get answers on a layer follows from C93 with no operation, so the program makes exactly the calls of a list of writes (lay_all_calls); C96 gives success, validity and a document that reads like the map after the writes; that this map is described by 'the last layer that has the place, else the base' is shown by induction over the writes from the end (writes_store, last_all_writes). The laws C107_again and C107_any_order are about that description alone. Limits: Refuted: keys with elements inside keep them (C107_nested_refuted).
* **C108** What each option has an influence on (PropWhich.v; proved). Function by function, by induction where there is a loop: what two options that agree on the fields in question compute is the same (set_case, delete_case); for Indent the two computations are related by 'lines put in' (build_spread, create_spread, append_spread, set_told). Limits: Refuted: Options{} as the default (C108_zero_refuted), Indent with markup (C108_markup_refuted).
* **C109** A document can be brought into agreement with another one (PropSync.v; proved). On maps: an adjusted place agrees, and adjusting any other place keeps an agreement (agreement_kept, by cases on the two places). For the calls: induction on the list from the end, every prefix of which is a history to which C93_store applies, so that the answers on which the next edit depends are known. Limits: Refuted for repeated elements (C109_repeated_refuted).
* **C110** A program cannot tell a document from a map (PropAgent.v, PropPause.v; proved). Programs are an inductive type (Finish, Ask, Do) with two interpreters, one calling the library, one working on a map. Induction on the program with the edits made so far as a history, to which C93_store applies at each question (agent_ok).
* **C111** A program cannot tell a document from its tree (PropActor.v, PropInquiry.v; proved). Programs are an inductive type (Stop, Query, Perform) with an interpreter that calls the library and a relation on trees. Induction on the run on the tree, the document being a text of a tree that is the same up to the order of attributes (actor_ok); one step of an edit is laid_history_ok (C71), one question is get_query; what a program learns from a result is determined by the answer of the tree (tells_fun, describes_tells).
* **C112** Programs with keys of their own can share a document (PropCrowd.v, PropWeave.v; proved). An interleaving of two programs is again a program (weave), so C110 applies. On maps, by induction on the turns: a program is determined by the map on its keys, and leaves the others (weave_ok); the edits of the interleaving are a permutation of those of the two, so that the budgets add up. Limits: Refuted for programs that share a key (C112_shared_refuted: a lost update).
* **C113** Deleting elements only takes text out, and comes to an end (PropPurge.v; proved). Every element found by the scanner has its content strictly after its start and its end not before that (scan_strict), by induction on the path the same holds of the location found (loc_strict); so the two slices leave out a non-empty stretch, and the length is a measure of the loop. Limits: Refuted for attributes, whose deletion may lengthen the document (C113_attribute_refuted); the loop may end with the element still there (C113_gone_refuted).

## 6. Not modelled

* The decoder and the encoder of encoding/xml, used by `@pretty`: a field `e_codec` of `env`
  (a function from text to tokens and one from tokens to text); what the library does between
  them is modelled in `ModelPretty.v`.
* `strconv.ParseFloat` and `strings.ToLower` beyond ASCII: opaque functions of `env`.
* Byte/string aliasing (`unsafe` conversions), memory use, timing.
* Go's own scheduling and memory model: lock-protected regions are atomic steps.
* `filter.go:parseFilter` (deprecated bracket syntax, not reachable from the API) and
  `MaxFilterDepth` (compared with a depth that is always 0).
* Texts of errors are modelled beside the constructors of the other theorems (`ModelErrText`, C72, for edits and the registry; `ModelMessage`, C70, for validation). What `%T` prints for the type of a value is an input of the call, what `%q` prints for a string a parameter.
* Example programs, benchmarks and tests of the repository.

## 7. Checking the theorems against wrong programs

`seeded/LOG.jsonl` records deliberate bugs introduced into a scratch copy of the model,
the theorems that failed, and the theorems that were added or tightened when a bug
went unnoticed.

## 8. A departure from the working rules

/repo was to be read as text, without building or running its code. For a while the
functions of the `_test.go` files and Go snippets of the documentation were evaluated by a
small interpreter written for the purpose, with every call of the library answered by the
model. No function of the library itself was evaluated, but test functions are code of the
repository, so this went beyond reading. It was stopped before it had finished and its
scripts were deleted. No definition, theorem or entry of `seeded/LOG.jsonl` was made or
changed because of its output. Running the extracted model itself (for the seeded bugs)
is not affected.
