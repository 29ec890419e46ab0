{"id": "C01", "title": "Text escaping is lossless and inert", "statement": "The text Set writes for a string value contains no '<', '>', '\"' or \"'\" and every '&' in it starts one of the five predefined references; decoding those references, as Get does, gives back the original value byte for byte. Consequently two different values are never written as the same text and a value can never open or close a tag or an attribute quote.", "quantifier": "every byte string (any length, any bytes, including text that already looks like entity references)", "why_tests_cant": "Tests can only try finitely many strings; the interaction of '&', partial references and already-escaped input is an all-strings claim.", "anchors": ["parser.go:escapeXML", "parser.go:unescapeXML", "parser.go:xmlEscaper", "parser.go:xmlUnescaper", "builder.go:valueToXML"]}
{"id": "C02", "title": "Get after Set returns the value that was set", "statement": "On a document in canonical form (double-quoted escaped attributes, one space between attributes, no space inside closing tags), if the path names an existing non-self-closing element then Set(xml,path,v) succeeds and Get(result,path) exists and its String() is v with surrounding white space trimmed. On a self-closing target, or on a document that is not in canonical form, the claim is false of this code and is refuted by explicit documents.", "quantifier": "every canonical element forest (any size, depth, number of siblings and attributes), every plain dot path (names with optional non-negative index), every string value, every map-iteration order", "why_tests_cant": "Depends on the shape of the whole document before and after the target and on offsets computed through all enclosing levels.", "anchors": ["set.go:Set", "builder.go:setElement", "builder.go:findElementLocation", "builder.go:replaceElement", "get.go:Get"]}
{"id": "C03", "title": "Set touches only the content of its target", "statement": "Under the hypotheses of C02 the new document is the old one with exactly the bytes between the target's start tag and end tag replaced by the escaped value: the bytes before and after are identical, so every other element, attribute, comment-free text and the white space between them are preserved.", "quantifier": "every canonical document, plain path and value", "why_tests_cant": "A frame condition: it speaks about all bytes that must not change, for every document.", "anchors": ["builder.go:replaceElement", "builder.go:findElementLocation"]}
{"id": "C04", "title": "Set creates a missing element under its nearest existing ancestor", "statement": "On a canonical document, if only a proper prefix of a plain path of names exists, Set(xml,path,v) inserts one chain of new elements named by the missing suffix, holding the escaped value, as the last child of the deepest existing ancestor (expanding it when it was self-closing), changes nothing else, and Get(result,path).String() is the trimmed value. With different root name a sibling root is created.", "quantifier": "every canonical forest, path of names, value", "why_tests_cant": "Quantifies over which prefix exists and over all surrounding content.", "anchors": ["builder.go:createElement", "builder.go:createInRoot", "builder.go:createInParent", "builder.go:shouldCreateSiblingRoot", "builder.go:createSiblingRoot", "builder.go:buildElementPathWithDepth"]}
{"id": "C05", "title": "Setting an attribute is read back and leaves other attributes alone", "statement": "On a canonical document, Set(xml, p.@a, v) for an existing element p rewrites only that element's start tag: afterwards Get(p.@a) is v exactly, every other attribute of the element keeps its value, and all bytes outside the start tag are unchanged.", "quantifier": "every canonical document, element path, attribute name and value (any bytes)", "why_tests_cant": "All attribute lists and all values; the rewrite re-serialises every attribute of the tag.", "anchors": ["builder.go:replaceAttribute", "get.go:executeQuery", "parser.go:parseAttributes"]}
{"id": "C06", "title": "Delete removes exactly the first match", "statement": "On a canonical document, if a plain path of names finds an element by descending through first matches, Delete removes exactly that element's bytes (start tag to end tag) and nothing else, provided something else remains in the document. Deleting the only top-level element leaves the document unchanged with a nil error (refuted instance of the general claim), and a path that Get only finds by trying a later sibling is not deleted.", "quantifier": "every canonical document and path", "why_tests_cant": "Frame condition over all documents.", "anchors": ["builder.go:deleteElement", "builder.go:getResult", "set.go:Delete"]}
{"id": "C07", "title": "Deleting an absent path is a successful no-op", "statement": "If the document is accepted by Valid and a path of names, optionally ending in an attribute, designates nothing, Delete returns the document byte-identical and no error. For paths with an index this is false of this code (at the top level Get compares whole names while Delete ignores prefixes): refuted instance.", "quantifier": "every document accepted by Valid of at most 10 MiB, every path of at most 100 names optionally ending in an attribute, every fixed map iteration order", "why_tests_cant": "All documents and paths; includes the many not-found exits of the locator.", "anchors": ["builder.go:deleteElement", "builder.go:deleteAttribute", "set.go:Delete"]}
{"id": "C08", "title": "Append adds exactly one element after the last match", "statement": "On a canonical document, Set(xml, p.name.-1, v) inserts exactly one new element <name>v</name> after the last child called name of the element p (or as last child when there is none), all other bytes are unchanged, the count p.name.# grows by one and p.name.N (N the old count) reads back v.", "quantifier": "every canonical document, parent path, name and value", "why_tests_cant": "Depends on position of the last match among arbitrarily many siblings.", "anchors": ["builder.go:appendElement", "builder.go:findLastMatchPosition", "builder.go:appendRootElement"]}
{"id": "C09", "title": "A failed mutation returns the input unchanged", "statement": "Whenever Set, SetBytes, SetRaw, SetMany, Delete, DeleteMany or their WithOptions forms report an error, the returned document is the input byte for byte.", "quantifier": "every document, path, value and option set", "why_tests_cant": "Every error exit of every mutator, for all inputs.", "anchors": ["set.go:SetBytes", "set.go:SetRaw", "set.go:SetMany", "set.go:DeleteBytes", "set.go:DeleteMany", "set.go:SetBytesWithOptions", "set.go:DeleteBytesWithOptions"]}
{"id": "C10", "title": "SetMany is sequential Set and all-or-nothing", "statement": "SetMany(xml, paths, values) succeeds exactly when each Set in order succeeds, each on the result of the previous one, and then returns the last result; otherwise it returns the original document and an error. A length mismatch, empty lists or an oversize input follow the documented cases.", "quantifier": "every document and every pair of lists of paths and values (any length)", "why_tests_cant": "Claim over lists of unbounded length and over the position of the failing element.", "anchors": ["set.go:SetMany", "set.go:SetManyBytes"]}
{"id": "C11", "title": "DeleteMany is sequential Delete over the distinct paths and all-or-nothing", "statement": "DeleteMany(xml, p1..pn) equals deleting the first occurrence of each distinct path in order; duplicates have no further effect; on any error the original document is returned.", "quantifier": "every document and every list of paths", "why_tests_cant": "Unbounded path lists with arbitrary duplication patterns.", "anchors": ["set.go:DeleteMany", "set.go:DeleteManyBytes"]}
{"id": "C12", "title": "Setting nil is deleting", "statement": "Set(xml,path,nil) returns exactly what Delete(xml,path) returns, with the same options.", "quantifier": "every document (including the empty one), path and option set", "why_tests_cant": "All inputs.", "anchors": ["set.go:SetBytes", "builder.go:setElement", "builder.go:deleteElement"]}
{"id": "C13", "title": "Mutators refuse malformed and oversize documents", "statement": "Set, SetRaw and Delete never modify a non-empty document that Valid rejects or that is larger than 10 MiB: they report ErrMalformedXML and return it unchanged; values larger than 5 MiB are refused with ErrInvalidValue.", "quantifier": "every document and path", "why_tests_cant": "All invalid documents.", "anchors": ["set.go:SetBytes", "set.go:DeleteBytes", "builder.go:setElement", "validate.go:Valid"]}
{"id": "C14", "title": "No public operation panics", "statement": "Get, Set, SetRaw and Delete return normally on every document and path. (The documentation promises this; it is false of this code: Get panics on a filter whose value is a single quote character, and Set and Delete panic on some valid documents because of offset drift. What holds: Get does not panic unless the path has a step that is a filter with a lone quote as value; on canonical documents Delete does not panic for any other path and any options, and Set does not for any such path that does not end in an attribute and any value, nor for a plain path ending in an attribute.)", "quantifier": "every document, every path, every value", "why_tests_cant": "Crash freedom over all byte strings.", "anchors": ["filter.go:parseFilterCondition", "builder.go:replaceElement", "builder.go:findElementLocation", "docs/error-handling.md"]}
{"id": "C15", "title": "Every query terminates", "statement": "Get returns on every document and every path, including arbitrarily malformed documents, nested filters and recursive wildcards: every scanner loop consumes input and every recursive call works on a shorter path or smaller content.", "quantifier": "every document and path", "why_tests_cant": "Termination cannot be observed by testing.", "anchors": ["get.go:executeQuery", "get.go:recursiveSearchWithContext", "parser.go:parseElementContent", "parser.go:skipToNextElement", "filter.go:evaluateFilterWithDepth"]}
{"id": "C16", "title": "Valid accepts only documents with properly nested tags", "statement": "Valid(xml) is true exactly when xml splits into markup and text such that start and end tags match like parentheses with equal names, every tag name and attribute name is non-empty and legal, every attribute value is quoted, comments have no double hyphen, no non-blank text occurs outside an element, and the limits on tokens, attributes, depth and size hold.", "quantifier": "every byte string", "why_tests_cant": "Soundness over all inputs.", "anchors": ["validate.go:validate", "validate.go:parseTag", "validate.go:parseOpeningTag", "validate.go:parseClosingTag"]}
{"id": "C17", "title": "Valid accepts every canonical document within the limits", "statement": "The serialisation of every element forest with legal names, at most 100 attributes per element, at most 100 levels, tokens of at most 1 MiB and total size at most 10 MiB, with at least one element and only white space between roots, is accepted by Valid.", "quantifier": "every element forest", "why_tests_cant": "Completeness over all trees.", "anchors": ["validate.go:validate"]}
{"id": "C18", "title": "Valid enforces the depth and size limits", "statement": "If Valid(xml) is true then xml is non-empty, not larger than 10 MiB, and at no point are more than 100 elements open; every canonical document with more than 100 levels is refused.", "quantifier": "every byte string", "why_tests_cant": "Bound over all inputs.", "anchors": ["validate.go:validate", "validate.go:parseOpeningTag", "parser.go:MaxNestingDepth", "parser.go:MaxDocumentSize"]}
{"id": "C19", "title": "Validation errors carry a real position", "statement": "ValidateWithError returns nil exactly for the documents Valid accepts. When it reports an error, line and column designate a position inside the document or at its end: line-1 newlines precede it and exactly column bytes stand between the last newline and it (columns count from 0).", "quantifier": "every byte string", "why_tests_cant": "All error exits on all inputs.", "anchors": ["validate.go:advance", "validate.go:ValidateWithError"]}
{"id": "C20", "title": "SetRaw refuses declarations and unbalanced fragments", "statement": "SetRaw accepts exactly the fragments of a grammar of texts, comments, CDATA sections without a nested CDATA start, instructions other than <!DOCTYPE and <!ENTITY, and balanced tags with matching names; every other fragment is refused with ErrInvalidValue and the document is returned unchanged. (A truncated end tag at the end of the fragment and lower-case <!doctype are in the grammar: refuted instances of what users would expect.)", "quantifier": "every document, path and byte string given to SetRaw", "why_tests_cant": "All fragments.", "anchors": ["set.go:validateRawXML", "set.go:SetRaw"]}
{"id": "C21", "title": "Set keeps a document valid", "statement": "If Valid(xml) and Set(xml,path,v) succeeds then Valid(result). This holds for canonical documents and edits by plain paths whose new names are legal XML names, as long as the result keeps an element and stays within 10 MiB; it is false in general (paths ending in a missing index, in '#' or '%', and names that are not legal XML names produce malformed output with a nil error, and a path can inject markup).", "quantifier": "every document, path and value", "why_tests_cant": "All documents and paths.", "anchors": ["builder.go:setElement", "builder.go:buildElementPathWithDepth", "set.go:Set"]}
{"id": "C22", "title": "Escaped dots split and join faithfully", "statement": "Writing any list of names with every '.' and '\\\\' preceded by a backslash and joining them with '.' gives a path whose segments are exactly those names.", "quantifier": "every non-empty list of non-empty byte strings without other special meaning", "why_tests_cant": "All names including ones made of dots and backslashes.", "anchors": ["path.go:splitPath"]}
{"id": "C23", "title": "Over-long paths are refused", "statement": "A path with more than 100 segments never yields a result: Get returns Null and Set returns ErrInvalidPath; every parsed path has at most 100 segments and never more segments than one plus its length.", "quantifier": "every path", "why_tests_cant": "All paths.", "anchors": ["path.go:parsePathInternal", "path.go:MaxPathSegments"]}
{"id": "C24", "title": "The path cache is transparent under every schedule", "statement": "For every finite set of goroutines parsing any paths in any interleaving of their lock-protected steps, each call returns the segments that parsing that path from scratch gives, no matter what other goroutines parse, when the cache is cleared, or what callers write into the segment slices they were given (as the case-insensitive options do).", "quantifier": "every number of goroutines, every sequence of paths, every interleaving", "why_tests_cant": "Tests and the race detector sample schedules.", "anchors": ["path.go:parsePath", "path.go:pathCache"]}
{"id": "C25", "title": "The path cache stays bounded", "statement": "At every point of every execution the cache holds at most 256 entries.", "quantifier": "every interleaving of any number of calls", "why_tests_cant": "Unbounded histories.", "anchors": ["path.go:parsePath", "path.go:pathCacheLimit"]}
{"id": "C26", "title": "Namespace prefixes: unprefixed steps match any prefix, prefixed steps match exactly", "statement": "A path step without ':' matches an element exactly when the names are equal or the element is prefixed and its local part equals the step; a step with a prefix matches only the element with the same prefix and local part; prefixes longer than 256 bytes are ignored.", "quantifier": "every pair of step and element name", "why_tests_cant": "All strings.", "anchors": ["path.go:matchesWithOptions", "path.go:splitNamespace"]}
{"id": "C27", "title": "Case-insensitive matching is ASCII case folding", "statement": "With CaseSensitive=false a step matches an element name exactly when the ASCII-lower-cased names match in the case-sensitive sense; non-ASCII bytes are compared exactly; folding is idempotent and length preserving, and any exact match is also a case-insensitive match.", "quantifier": "every pair of names", "why_tests_cant": "All strings.", "anchors": ["path.go:toLowerASCII", "path.go:matchesWithOptions", "get.go:parsePathWithOptions"]}
{"id": "C28", "title": "Get on a canonical document is the tree query", "statement": "For a canonical document, Get with a path of names, indexes and a final @attribute, '%' or '#' returns the value that the corresponding walk on the element tree designates (first match in document order with backtracking over siblings), and Null exactly when the walk finds nothing.", "quantifier": "every canonical forest and every plain path", "why_tests_cant": "All trees.", "anchors": ["get.go:executeQuery", "parser.go:parseElementContent", "parser.go:extractTextContent"]}
{"id": "C29", "title": "Counts and indexes agree", "statement": "On a canonical document, if Get(p.name.#) is n then p.name.i exists for every i<n; when every name of p carries an index (or p is empty) p.name.i is Null for every i>=n. Without the second condition the latter is false: a path that is ambiguous before the name is resolved by backtracking, so an index beyond the reported count can be found below a later sibling (refuted instance).", "quantifier": "every canonical document and index", "why_tests_cant": "All sibling lists and indexes.", "anchors": ["get.go:executeQuery", "get.go:handleWildcardMatches"]}
{"id": "C30", "title": "A wildcard lists the children in document order", "statement": "On a canonical document p.* yields exactly the child elements of the element p designates, in document order: the single element itself for one, an Array for more, Null for none (when p leaves no choice to return to); at most 1000 are returned.", "quantifier": "every canonical document", "why_tests_cant": "All sibling lists.", "anchors": ["get.go:executeQuery", "get.go:handleWildcardMatches", "get.go:MaxWildcardResults"]}
{"id": "C31", "title": "Result counts are bounded", "statement": "Every Array returned by Get for a path with one wildcard has at most 1000 entries, and with k multiplying steps at most 1000^k. (Two nested wildcards exceed 1000: refuted instance.) The same holds under options when case counts; when it does not, the bound is one hundred times larger, and one wildcard with an attribute step does exceed 1000 (refuted instance).", "quantifier": "every document, every path without modifiers and all options", "why_tests_cant": "All documents.", "anchors": ["get.go:handleWildcardMatches", "get.go:recursiveSearchWithContext", "get.go:MaxWildcardResults"]}
{"id": "C32", "title": "#(cond) is the first element of #(cond)#", "statement": "On every document, with p.name.#(cond) and p.name.#(cond)# at the end of a path of names, the first returns exactly the first entry of the array returned by the second, and both are Null when nothing satisfies cond; the all-matches form returns exactly the elements of that name satisfying cond, in document order (out of the first 1000 of that name).", "quantifier": "every document and condition", "why_tests_cant": "All documents and conditions.", "anchors": ["get.go:handleFilterQuery", "get.go:processFirstMatch", "get.go:processAllMatches"]}
{"id": "C33", "title": "Pattern filters implement glob matching", "statement": "The % operator matches a value against a pattern exactly when the value is an instance of the pattern ('*' any sequence, '?' any one character, backslash quotes the next character), and it gives up only when length(value)*length(pattern) exceeds the iteration limit, in which case it reports no decision.", "quantifier": "every string, every pattern, every limit", "why_tests_cant": "All strings and patterns.", "anchors": ["internal/pattern/match.go:Match"]}
{"id": "C34", "title": "Numeric comparisons never hold on non-numbers", "statement": "An ordering filter (<, >, <=, >=) holds only if the value exists and both sides are finite numbers, and then it compares those numbers; == and != compare the texts byte for byte; every comparison is false when the compared path is missing, so != is the negation of == exactly when it exists; !% is the negation of % unless the matcher gave up, in which case both are false.", "quantifier": "every value text, literal and operator", "why_tests_cant": "All strings.", "anchors": ["filter.go:evaluateFilterWithDepth", "filter.go:isNumericValue"]}
{"id": "C35", "title": "Modifiers apply left to right", "statement": "x|@m1|@m2 applies m1 and then m2; a chain of more than 20 modifiers or one naming an unknown modifier yields Null; an empty chain changes nothing; splitting a chain in two and applying one after the other is the same. Through Get, path|@m1|@m2 is Get(path) followed by the modifiers for paths of names ending in a name, attribute, text, index or count. (In the fragment-root index branch the modifiers are ignored: refuted instance.)", "quantifier": "every chain, registry and result", "why_tests_cant": "Unbounded chains and arbitrary custom modifiers.", "anchors": ["modifier.go:applyModifiers", "modifier.go:parseModifiers"]}
{"id": "C36", "title": "Laws of the built-in modifiers", "statement": "@reverse twice is the identity on arrays and keeps the multiset of entries; @first and @last select the end entries (an empty array is returned as it is); @sort returns a permutation of the entries in ascending order (entries without NaN, given that sort.Slice meets its contract) and sorting twice gives the same order of keys; @flatten splices exactly one level of nesting and yields Null when nothing is left; all of them leave non-arrays alone.", "quantifier": "every array result", "why_tests_cant": "All arrays.", "anchors": ["modifier.go:reverseModifier", "modifier.go:sortModifier", "modifier.go:firstModifier", "modifier.go:lastModifier", "modifier.go:flattenModifier"]}
{"id": "C37", "title": "Built-in modifiers can never be removed or replaced", "statement": "After any history of RegisterModifier and UnregisterModifier calls from any number of goroutines, every built-in name is still bound to its original implementation, and a custom name is bound to the modifier of the last successful registration not yet undone.", "quantifier": "every history and interleaving", "why_tests_cant": "Unbounded histories.", "anchors": ["modifier.go:RegisterModifier", "modifier.go:UnregisterModifier", "modifier.go:isBuiltinModifier"]}
{"id": "C38", "title": "The API variants agree", "statement": "GetBytes, GetString and Get agree; GetMany is Get on each path; GetWithOptions with nil or default options is Get; Set and SetBytes agree; SetWithOptions with default options is Set.", "quantifier": "every document, path list, value", "why_tests_cant": "All inputs.", "anchors": ["get.go:GetMany", "get.go:GetWithOptions", "set.go:SetWithOptions", "options.go:isDefaultOptions"]}
{"id": "C39", "title": "Result accessors are consistent", "statement": "Array() of an array is its entries, of Null is empty, of anything else is the one-element list; ForEach visits exactly the entries of Array() in order, stopping after the first callback that returns false; Exists() is false exactly for Null; Int() of a numeric string within range is that number, of any other string 0, of a number the number without its fraction, of true 1, of anything else 0; Float() of a string is what strconv.ParseFloat makes of it or 0, of a number the number, of true 1, of anything else 0; Bool() is true for true, numbers other than 0 and seven strings.", "quantifier": "every result and every callback", "why_tests_cant": "All results and callbacks.", "anchors": ["result.go:97-148", "result.go:Array", "result.go:ForEach", "result.go:Exists"]}
{"id": "C40", "title": "Map groups the child elements by name in document order", "statement": "For an element result, Map() has a key for exactly the names of its child elements (first 1000) plus '%' when there is non-blank direct text; the value of a name is the single child or the Array of all children with that name in document order.", "quantifier": "every canonical element content", "why_tests_cant": "All sibling lists.", "anchors": ["result.go:Map", "result.go:parseMapChildren", "result.go:addChildToMap"]}
{"id": "C41", "title": "Get ignores documents above the size limit", "statement": "Get returns Null for every document larger than 10 MiB and for the empty path.", "quantifier": "every oversize document and every path", "why_tests_cant": "All inputs.", "anchors": ["get.go:GetBytes", "parser.go:MaxDocumentSize"]}
{"id": "C42", "title": "Prologs and comments do not influence queries", "statement": "An XML declaration, comments and a DOCTYPE declaration with internal subset before the root do not change the result of Get; nothing declared in a DOCTYPE is ever expanded.", "quantifier": "every prolog of these forms, every document and path", "why_tests_cant": "All prologs.", "anchors": ["parser.go:skipToNextElement", "get.go:Get"]}
{"id": "C43", "title": "Answers do not depend on map iteration order", "statement": "The kind, text, number and number of entries returned by Get on a canonical document are the same for every order in which the runtime enumerates attribute maps. (Raw is not: refuted by a document with two attributes on a nested element; nor is the document produced by Set when it expands a self-closing element with two attributes.)", "quantifier": "every document, path and every enumeration order", "why_tests_cant": "The runtime randomises the order; tests see a few orders.", "anchors": ["parser.go:parseElementContent", "builder.go:createInParent"]}
{"id": "C44", "title": "Chained queries agree with the full path", "statement": "For a canonical document and plain paths p, q of names where p resolves to an element whose first match also contains q, Get(xml,p).Get(q) equals Get(xml,p.q) in kind and text.", "quantifier": "every canonical document and pair of paths", "why_tests_cant": "All documents.", "anchors": ["result.go:Get", "result.go:isMultiRootFragment"]}
{"id": "C45", "title": "@ugly removes only white space outside tags and CDATA", "statement": "@ugly never adds bytes, never removes a byte other than white space, leaves tags and CDATA sections byte-identical, removes all white space elsewhere and is idempotent. (The words of character data therefore run together: \"inter-tag white space only\" is refuted.)", "quantifier": "every byte string", "why_tests_cant": "All strings.", "anchors": ["modifier.go:compactXML", "modifier.go:uglyModifier"]}
{"id": "C46", "title": "String() of an array can be decoded", "statement": "The bracketed text produced by String() for an array of well-formed UTF-8 strings determines the strings: decoding the quoting gives the entries back. (Arrays of strings with invalid UTF-8 bytes can share one text: refuted instance.)", "quantifier": "every list of strings", "why_tests_cant": "All lists.", "anchors": ["result.go:String"]}
{"id": "C47", "title": "Edits compose: any history of edits on a canonical document acts like tree edits", "statement": "Starting from a canonical document, after any sequence of Set (string, integer, boolean), SetRaw (canonical fragment), append and Delete operations by plain paths the document is the serialisation of the tree obtained by applying the corresponding tree edits, up to attribute order; it is valid and every query - plain paths, wildcards, searches, conditions, field lists - answers from that tree.", "quantifier": "every finite sequence of edits", "why_tests_cant": "Unbounded histories.", "anchors": ["set.go:Set", "set.go:Delete"]}
{"id": "C48", "title": "Index strings denote their decimal value", "statement": "A path step that is the decimal representation of a non-negative number below 2^63 selects that index; larger ones select no element. (Not only numerals are indexes: a step of digits with a dash elsewhere than in front, such as 1-2 or --5, selects the first element: refuted instance.)", "quantifier": "every numeral", "why_tests_cant": "All digit strings.", "anchors": ["path.go:parsePathInternal", "path.go:isNumeric"]}
{"id": "C49", "title": "Index intents for mutation are classified correctly", "statement": "A path whose last step is -1 is an append, any other negative index is refused with ErrInvalidPath by Set, -1 not in last position is refused, and all other paths are plain accesses.", "quantifier": "every path", "why_tests_cant": "All paths.", "anchors": ["path.go:resolveIndexIntent", "builder.go:setElement"]}
{"id": "C50", "title": "Filter conditions parse into path, operator and literal", "statement": "A condition written as path, one of the comparison operators and an unquoted or properly quoted literal parses to exactly that path, operator and literal; conditions longer than 256 bytes and malformed paths are refused. (Inside a path a dot in the literal must be escaped, since paths are cut at dots before conditions are read: r.p.#(c==4.5) finds nothing: refuted instance.)", "quantifier": "every path without operator characters, every operator; any literal for two-character operators, literals without '=' and '!' for one-character operators", "why_tests_cant": "All strings.", "anchors": ["filter.go:parseFilterCondition"]}
{"id": "C51", "title": "Only case sensitivity influences queries with options", "statement": "GetWithOptions with CaseSensitive=true and arbitrary other options (indent, whitespace, namespaces) equals Get on every path without modifiers that has no wildcard or no '#'. With modifiers, or with a wildcard followed by field extraction, it is false of this code: refuted instances.", "quantifier": "every document, option set with CaseSensitive=true and path of that form", "why_tests_cant": "The two evaluators are separate copies of about a thousand lines each; agreement on all documents, filters, wildcards and nested paths cannot be enumerated.", "anchors": ["get.go:857-885", "get.go:915-1273", "get.go:165-563"]}
{"id": "C52", "title": "SetRaw inserts the fragment's tree", "statement": "SetRaw on an existing element replaces the bytes between its tags by exactly the given fragment; if the fragment is canonical the result is a valid document in which queries find the fragment's elements and attributes as the content of that element. (On an attribute path the raw text is written unescaped and can end the attribute: refuted instance.)", "quantifier": "every canonical document, plain path and accepted fragment", "why_tests_cant": "All documents and fragments.", "anchors": ["set.go:SetRaw", "builder.go:setElement", "builder.go:replaceElement"]}
{"id": "C53", "title": "Integers and booleans survive a round trip", "statement": "Set with an int acts exactly like Set with its decimal notation, Set with a bool like Set with \"true\" or \"false\", on every document and path; on a canonical document Get(path).Int() and Get(path).Bool() then return the value, for elements and attributes.", "quantifier": "every int64 and bool, every document and path", "why_tests_cant": "All integers and documents.", "anchors": ["builder.go:valueToXML", "result.go:Int", "result.go:Bool"]}
{"id": "C54", "title": "The query language has a tree semantics", "statement": "For every path built from child steps (with first match, index, count or condition), wildcards, recursive searches and final attribute, text, count or field steps, Get on a canonical document returns exactly the values that the path's meaning on the document tree prescribes, in that order.", "quantifier": "every well-formed query of the language, every canonical document up to 10 MiB, at most 100 levels and fewer than 9999 elements, every map iteration order", "why_tests_cant": "Queries combine without bound, documents are unbounded.", "anchors": ["path.go:parsePath", "get.go:executeQuery", "get.go:handleRecursiveWildcard", "filter.go:evaluateFilterOnMatch"]}
{"id": "C55", "title": "A recursive search finds every element with the name", "statement": "Get(\"**.name\") returns the elements with that name at every depth, each element after the elements inside it and otherwise in document order, up to the limit of 1000 results.", "quantifier": "every canonical document and name", "why_tests_cant": "All depths and shapes.", "anchors": ["get.go:handleRecursiveWildcard", "get.go:recursiveSearchWithContext"]}
{"id": "C56", "title": "A condition selects exactly the children that satisfy it", "statement": "Get(\"root.item.#(cond)#\") returns the children named item that satisfy the condition, in document order; without the final # it returns the first of them; if there is none the result does not exist.", "quantifier": "every canonical document, names and condition", "why_tests_cant": "All documents, operators and values.", "anchors": ["filter.go:parseFilterCondition", "filter.go:evaluateFilterOnMatch", "get.go:handleFilterQueryOnMatches"]}
{"id": "C57", "title": "Field extraction lists the fields in document order", "statement": "Get(\"root.item.#.field\") is an array with the values of that child element, attribute or text of every item, in document order and without duplicates or omissions, up to the limit of 1000.", "quantifier": "every canonical document, names and field", "why_tests_cant": "All documents.", "anchors": ["get.go:executeFieldExtraction"]}
{"id": "C58", "title": "Case-insensitive queries walk the tree with folded names", "statement": "GetWithOptions with CaseSensitive off returns what the corresponding walk over the element tree designates when element, attribute and field names are compared after folding ASCII letters to lower case; therefore two spellings of a query that differ only in the case of names get the same answer, whatever the other options are.", "quantifier": "every query of the language (children, indexes, conditions, wildcards, searches, fields), every canonical document in which no element has two attributes differing in case only, every map iteration order", "why_tests_cant": "All documents and queries; the options variants are separate copies of the query code.", "anchors": ["get.go:executeQueryWithOptions", "get.go:handleWildcardMatchesWithOptions", "get.go:handleRecursiveWildcardWithOptions", "get.go:executeFieldExtractionWithOptions"]}
{"id": "C59", "title": "Modifiers at the end of a query act on the whole answer", "statement": "A query ending in |@m1|@m2... returns the result of the query without modifiers, followed by the modifiers from left to right applied to the whole answer (the list, not its entries), whenever only the last step of the query chooses several elements; missing values and empty lists are left alone. On canonical documents @first, @last, @reverse and @flatten therefore give the first entry, the last entry, the reversed and the same list of what the walk over the tree designates, and @sort the same entries in ascending order.", "quantifier": "every document, every query of the language with children, indexes, conditions, a final wildcard or #(...)# and field lists, every chain of modifiers that keeps values", "why_tests_cant": "All documents, queries and modifier chains; modifiers are applied at eleven places of the query code.", "anchors": ["modifier.go:applyModifiers", "get.go:executeQuery", "get.go:executeFieldExtraction", "get.go:processAllMatches", "path.go:parsePathInternal"]}
{"id": "C60", "title": "How tags are written has no influence on queries", "statement": "White space inside start and end tags, single or double quotes, literal characters or references in attribute values and the order of attributes make no difference to any query: Get answers from the element tree, and Valid accepts every such notation. (Set and Delete do depend on it: white space or a greater-than sign in the tag of an earlier sibling makes them edit the wrong bytes.)", "quantifier": "every tree, every way to write its tags, every prolog, every query of the language, also case-insensitive or with modifiers", "why_tests_cant": "All documents, notations and queries.", "anchors": ["parser.go:parseAttributes", "parser.go:parseElementName", "parser.go:parseElementContent", "get.go:executeQuery", "builder.go:findElementLocation"]}
{"id": "C61", "title": "Edits under options", "statement": "Set and Delete with options designate the element that the path names when names are compared as CaseSensitive says. They replace exactly its content, one attribute, or nothing else; missing elements are created in order, each new element on its own line with the indentation of Indent; an append goes directly after the last sibling with the name. What was set in one spelling of the path is read back in every spelling. (Without CaseSensitive, new elements and attributes get lower-case names, whatever the spelling in the path.)", "quantifier": "every canonical document, every path of names with positions, every attribute, every Options value, every map order", "why_tests_cant": "All documents, paths, spellings, indentations and values.", "anchors": ["set.go:SetWithOptions", "set.go:DeleteBytesWithOptions", "builder.go:findElementLocation", "builder.go:replaceAttribute", "builder.go:createInParent", "builder.go:buildElementPathWithDepth", "builder.go:appendElement"]}
{"id": "C62", "title": "Queries on results", "statement": "A query on a result (Result.Get, GetMany, GetWithOptions) is the query on the children of the element, or of the first entry when the result is a list; each entry of a list can be asked the same way; anything else has no parts. Map and MapWithOptions group the children by name, with lower-case keys when case is ignored. Value returns the Go value of the kind of the answer. (A query that begins with a condition, and the empty path, behave differently when there are several children: the library then wraps them in an element of its own.)", "quantifier": "every canonical document, every pair of queries of the language, every Options value, every map order", "why_tests_cant": "All documents and all compositions of queries.", "anchors": ["result.go:Get", "result.go:GetMany", "result.go:GetWithOptions", "result.go:isMultiRootFragment", "result.go:Map", "result.go:MapWithOptions", "result.go:Value"]}
{"id": "C63", "title": "Validation reports name the first fault and its place", "statement": "ValidateWithError and ValidateBytesWithError report, for a document that is refused, the first fault in reading order: an end tag that does not match the innermost open element, an element that is never closed, text outside the elements, an illegal or missing name, an attribute without equals sign or quotes, an unterminated comment, CDATA section, DOCTYPE or processing instruction, and so on. Line and column are those of the place the fault belongs to: the start tag of the unclosed element, the wrong end tag, the first byte of the stray text.", "quantifier": "for all byte sequences: the report is given exactly if the described fault is the first; for all documents that are well-formed up to a place, with any number of open elements and any content, in the readable versions", "why_tests_cant": "Tests look at the error of some malformed documents, mostly at its existence. That kind, line and column are right for every malformed document, after any prefix, needs a relation between all inputs and reports.", "anchors": ["validate.go:79-152", "validate.go:162-224", "validate.go:227-311", "validate.go:314-367", "validate.go:370-453", "validate.go:481-573"]}
{"id": "C64", "title": "Every text given as a path has one meaning", "statement": "Any text can be passed as a path. It is cut at the dots that no backslash precedes; each piece is a name, an attribute, the text, a count, a wildcard, an index, a condition, or nothing, followed by modifiers behind bars; a count followed by a name, attribute or text is a field extraction. More than 100 pieces, or a condition that cannot be read, make the whole path unusable; a condition whose value is a single quote character brings the program down. Every text has exactly one meaning in this description, the parser computes it, and two texts of the same meaning are interchangeable in Get, Set and Delete. A path without steps or an unusable one answers nothing on every document.", "quantifier": "for all byte strings used as paths, all documents, all options, all values and all map orders", "why_tests_cant": "The set of path texts is infinite, and the interesting ones are those nobody writes on purpose: dangling backslashes, bars inside conditions, dashes inside numerals, operators inside values, 101 pieces. Tests pick a few dozen well-formed paths.", "anchors": ["path.go:124-366", "path.go:370-418", "filter.go:105-239", "modifier.go:205-224", "get.go:78-95"]}
{"id": "C65", "title": "The error an edit reports tells its reason", "statement": "Delete reports ErrMalformedXML exactly for documents that are not accepted by the validator, ErrInvalidPath exactly for paths without steps and lone attributes, and nothing else. Set with nil is Delete. Set with another value reports ErrMalformedXML for a document that is neither empty nor accepted, else ErrInvalidPath for a path without steps, else ErrInvalidValue for an unsupported or oversized value, else ErrInvalidPath for a misplaced negative index or a -1 not preceded by a name; otherwise it succeeds, except that appending may fail with ErrInvalidValue when the document would exceed 10 MiB, and that documents in which queries see no element may be called malformed. SetMany and DeleteMany report ErrMalformedXML for oversized documents and SetMany ErrInvalidPath for a wrong number of values. With an error the document comes back unchanged.", "quantifier": "for all documents, paths, values, options and map orders", "why_tests_cant": "Error kinds depend on the order of checks; a swapped check or a wrong sentinel shows only on inputs with two faults at once or on documents of 10 MiB, and tests assert mostly err != nil.", "anchors": ["set.go:271-418", "set.go:449-519", "builder.go:82-166", "builder.go:420-532", "builder.go:659-851", "builder.go:1018-1074", "errors.go"]}
{"id": "C66", "title": "What is recognised as an element in any text", "statement": "Queries read any text, well-formed or not. From left to right, everything up to the next start tag is passed over: text, end tags, processing instructions up to the first bracket, comments up to the first arrow (which may share the dashes that open the comment), document type declarations up to the first bracket outside square brackets, any other declaration mark. A start tag consists of a name up to white space, slash or bracket, of at most 100 attributes, quoted or not, of which the last with a name counts, of an optional slash and an optional bracket; names and values longer than 1 MiB count as empty. The content of an element reaches to the end tag that balances the tags of the same name, or to the end of the text; its tags are written anew with normalised spacing. Every text has exactly one list of elements in this description except for the order of attributes, and the wildcard returns their contents.", "quantifier": "for all byte strings used as documents and all map orders", "why_tests_cant": "Documents that are not well-formed are not an error for Get, and what is read from them depends on the state of a hand-written scanner at every byte; tests hold some malformed documents and check only that nothing crashes.", "anchors": ["parser.go:87-163", "parser.go:168-247", "parser.go:251-346", "parser.go:402-471", "get.go:566-678"]}
{"id": "C67", "title": "The answer to every query on every text", "statement": "For every text up to 10 MiB, well-formed or not, and every path that means steps, Get and GetWithOptions return an answer described from the elements of the text alone: a name selects the elements that bear it, in order, and the first one from which the rest of the path leads anywhere; conditions keep the elements they hold for; fields are collected; counts count at most 1000; indices select; the wildcard spreads; the recursive wildcard searches depth first within its limits; text is own text, element text is all text; modifiers apply where the notation says and nowhere else. With options names are compared in the way of the options. When map iteration has a fixed order, there is exactly one such answer.", "quantifier": "for all byte strings as documents, all paths that mean steps, all options, all map orders, all number parsers and modifier registries", "why_tests_cant": "Tests try particular documents with particular paths. The combinations of step kinds, the special treatment of steps at the beginning of a path, the places where modifiers are ignored, and documents that are not well-formed are too many to try.", "anchors": ["get.go:61-163", "get.go:165-565", "get.go:566-815", "get.go:844-913", "get.go:915-1498", "get.go:1500-1731", "get.go:1733-2267", "filter.go:243-393"]}
{"id": "C68", "title": "The outcome of every edit on every document", "statement": "For every document the validator accepts (or none, for Set), every path that means steps, every value up to 5 MiB and all options, Set, SetWithOptions, Delete and DeleteBytesWithOptions have the outcome described from the elements of the document and the steps of the path alone: which element a path leads to, which bytes are replaced by what when it exists, where and with which tags, names, order of attributes and indentation new elements are written when it does not, where appended elements go and when they are refused, how attributes are put and dropped, which error is returned and when the call crashes because a position falls outside the document. Setting nil is deleting. When map iteration has a fixed order, there is exactly one such outcome.", "quantifier": "for all accepted documents in any notation, all paths that mean steps, all values, all options, all map orders", "why_tests_cant": "Existing tests edit small documents in one notation. Whether the right bytes are replaced depends on every element before and around the place, on the notation of their tags, on the kind of every step, on the options and on map order.", "anchors": ["builder.go:44-167", "builder.go:169-415", "builder.go:417-704", "builder.go:706-1012", "builder.go:1014-1152", "set.go:60-98", "set.go:332-370", "set.go:438-519"]}
{"id": "C69", "title": "Pretty-printing", "statement": "The modifier @pretty hands every token of the raw text to the XML encoder in order, unchanged except that tags lose their name space and of several equal namespace declarations, or several values of one name, only the first is kept. The raw text becomes what the encoder writes; type, text and number of the result stay. If the raw text is empty or cannot be read or written, the result is unchanged.", "quantifier": "for all results, all decoders and encoders, all token sequences with names as decoders give them", "why_tests_cant": "Tests pretty-print a handful of documents. Whether an attribute is dropped depends on all attributes before it and on how texts built from names and values compare.", "anchors": ["modifier.go:361-429", "modifier.go:431-466"]}
{"id": "C70", "title": "The text of a validation error", "statement": "ValidateWithError returns nil exactly for documents that Valid accepts. Otherwise Line and Column are the place of the first fault, lines counted from 1 and columns from 0, and Message is the sentence for that fault. A message about a closing tag names the tag found and the innermost open element with the place of its start tag; messages about names quote the name that stands at the place reported; a message about an unfinished value or tag shows the character expected. Error() combines the three.", "quantifier": "for all byte strings given to ValidateWithError", "why_tests_cant": "Tests compare a few messages. That the names and places quoted in a message are those of the document needs an invariant on the stack of open tags over all inputs.", "anchors": ["validate.go:9-17", "validate.go:79-153", "validate.go:225-375", "validate.go:377-505", "validate.go:575-602"]}
{"id": "C71", "title": "Edits keep the notation of a document", "statement": "In a document whose start tags are written in any notation at the top level, and below it in any notation that has the length of the canonical one (such as apostrophes for quotation marks), Set, SetRaw, Delete and attribute edits act on the element the path designates: every byte before and after it is kept, Set keeps its start tag as written, and an attribute edit rewrites only the start tag. Any sequence of such edits leaves a document of the same kind for the edited tree, which Valid accepts and queries read.", "quantifier": "for all such documents, prologs, paths of names and indexes, values and sequences of edits within the limits, and all orders of map iteration", "why_tests_cant": "Tests edit documents in one notation. The editor computes positions from the canonical length of start tags; for which documents these are the real positions is a statement about all layouts and all histories.", "anchors": ["builder.go:findElementLocation", "builder.go:setElement", "builder.go:deleteElement", "builder.go:replaceElement", "builder.go:replaceAttribute", "builder.go:createInParent", "set.go:Set", "set.go:Delete"]}
{"id": "C72", "title": "Texts of edit errors", "statement": "The error text of Set, SetBytes, SetRaw, SetMany, Delete, DeleteMany and of the modifier registry is determined by the call: which of the documented reasons is named (append inside a path, reserved index with its number, append without an element, append to an attribute, value or document too large, unsupported type with its name, no place for an attribute, CDATA, DOCTYPE and ENTITY in raw content, length mismatch, the failing path of a batch) is exactly the reason that applies, and every text contains the general text of the error that errors.Is reports.", "quantifier": "for all documents, paths, options, values, raw contents, batches, registry calls, orders of map iteration, float formats and quotations", "why_tests_cant": "Tests compare single messages, mostly by substring or only with errors.Is. That no call is given the reason of another case, in whatever order the checks run, is a statement about all inputs.", "anchors": ["builder.go:setElement", "path.go:resolveIndexIntent", "builder.go:appendElement", "builder.go:createElementForAttribute", "builder.go:valueToXML", "set.go:SetWithOptions", "set.go:SetRaw", "set.go:validateRawXML", "set.go:SetMany", "set.go:DeleteMany", "modifier.go:RegisterModifier", "modifier.go:UnregisterModifier", "errors.go"]}
{"id": "C73", "title": "Edits are independent of each other and of unrelated queries", "statement": "An edit changes only what it says. A query whose path leaves the path of an edit (another name, or another number of the name) gets the same answer before and after any sequence of such edits. Two edits at different places that find what they change may be made in either order. Of two edits of one place only the last one shows, also when the first was made inside an element that is then replaced or removed, and asking for the old state again gives a document with the old answers (for content, the old bytes). Removing an element moves the later numbers up by one.", "quantifier": "for all well-formed trees in canonical notation, prologs, sequences of edits, queries of the language of C54, orders of map iteration and float formats", "why_tests_cant": "Independence is about pairs of edits and queries: each test shows one pair on one document. The claim quantifies over every sequence of edits and every query that avoids them.", "anchors": ["set.go:Set", "set.go:SetRaw", "set.go:Delete", "builder.go:setElement", "builder.go:deleteElement", "builder.go:createElement", "builder.go:appendElement", "get.go:executeQuery"]}
{"id": "C74", "title": "Numbers in documents are compared, sorted and converted by their decimal values", "statement": "An ordering condition on two decimal numbers never contradicts their decimal values: `<` and `>` hold only if the values are so ordered, `<=` and `>=` hold whenever they are. Numbers of at most 15 significant digits, integers up to 2^53 and all other values of float64 are compared exactly, however they are written (`9.9`, `+9.90`, `.99e1`); a query with such a condition selects exactly the children whose values are so ordered, and `@sort` puts such entries in the order of their values. `Float()` is the float64 nearest to the decimal value. Numbers beyond the range of float64 satisfy no ordering condition and have Float() 0. A float64 that is set is read back by Float().", "quantifier": "for all pairs of decimal texts (sign, fraction, exponent), the four operators, all canonical documents and queries with such a condition, all arrays of decimals", "why_tests_cant": "The values run over all decimal texts and the claim relates two of them through a rounding; comparing a few pairs of numbers cannot show that rounding never reverses an order or merges two short decimals.", "anchors": ["filter.go:evaluateFilterWithDepth", "filter.go:isNumericValue", "result.go:Float", "result.go:parseFloat64", "modifier.go:sortModifier.Apply", "builder.go:valueToXML"]}
{"id": "C75", "title": "The library may be used from many goroutines at once", "statement": "Goroutines may query the library, register, look up and unregister modifiers at the same time without synchronisation of their own. No two of them ever touch the same memory with one of them writing. A path is parsed to the same segments as without the cache, whatever others do and whatever callers write into slices they were given; the cache holds at most 256 paths at every moment; no deadlock or livelock is possible: once no new calls are made every call ends and the lock is free. RegisterModifier, GetModifier and UnregisterModifier are linearizable: each call takes effect at one moment between its start and its end, so of two registrations of one name only one succeeds. A query looks up only modifiers whose names stand behind an `@` in its path, so calls on other names do not change its answer.", "quantifier": "for all numbers of goroutines, all interleavings at the granularity of lock operations, map accesses and element copies, all paths and names, all environments, documents and options", "why_tests_cant": "The race detector and stress tests see the interleavings that happen to occur; the claim is about every schedule of every number of goroutines, including those the Go scheduler rarely produces.", "anchors": ["path.go:parsePath", "path.go:pathCache", "modifier.go:RegisterModifier", "modifier.go:GetModifier", "modifier.go:UnregisterModifier", "get.go:GetWithOptions", "README.md:Concurrency"]}
{"id": "C76", "title": "Every ordinary document is one tree, and queries are answered from it", "statement": "A valid document without processing instructions and document type after its prolog, without `>` in text and attribute values, without `<` in comments and CDATA sections, without repeated attributes and without tags above 170 kB is the text of exactly one tree of elements, texts, comments and CDATA sections, so what the other properties say of trees and the ways to write them holds of every such document as it stands. Get answers every query of the query language from this tree, and exactly the texts of trees are such documents. If the tags are moreover written neatly (one space before each attribute and none elsewhere, no reserved characters in values), every sequence of edits acts on the tree and leaves an ordinary document.", "quantifier": "for all byte sequences, all queries of the language of C54, all orders of map iteration", "why_tests_cant": "Tests pick documents; the claim is that no ordinary document falls outside the trees the other theorems speak of, for all byte sequences.", "anchors": ["get.go:Get", "validate.go:Valid", "parser.go:parseElementName", "parser.go:parseAttributes", "parser.go:skipToNextElement", "builder.go:Set", "builder.go:Delete"]}
{"id": "C77", "title": "The type of an answer can be read off the path", "statement": "Which types of answer Get can return — one element, attribute, text or number, a list of such, an empty list, or nothing — is determined by the path alone, for every text, well-formed or not, and under all options: a path of names, numbers, single conditions and an attribute, text or count at the end never gives a list however many elements bear the names; lists are flat; `#.field` and `#(…)#` give lists; paths such as a trailing `**`, a condition or number after `**` or `*`, or an unknown modifier have no answer on any document, while every query of the language without conditions has one on some document. Several answers shown in README.md and docs/path-syntax.md are therefore given for no document.", "quantifier": "for all byte sequences, all paths, all options, all orders of map iteration, all sorting functions that permute; modifiers built in or not registered", "why_tests_cant": "Tests look at the answer of one path on one document; the claim is that no document whatsoever makes a path answer with another type.", "anchors": ["get.go:Get", "get.go:executeQuery", "get.go:handleWildcardMatches", "get.go:handleFilterQuery", "modifier.go:applyModifiers", "get.go:GetWithOptions", "result.go:IsArray"]}
{"id": "C78", "title": "Values are data", "statement": "On every document, with every path and all options, the value given to Set does not decide what happens to the document: either the call has the same outcome for every value, or there is one document with gaps, determined by document, path and options alone, and every value's text is written into exactly these gaps (appending may in addition refuse a result over 10 MiB). So no string adds or removes an angle bracket or a quote, what can be set to one value can be set to every value whose text is not longer, and neither a crash nor an error other than a size error depends on the value.", "quantifier": "for all environments (order of maps, float formatting), options, documents (valid or not), paths and values other than nil whose text is at most 5 MiB", "why_tests_cant": "Injection tests try some hostile strings on some documents; the claim is that no string on any document, including those where positions drift or case-insensitive names match several attributes, can influence anything but the gaps.", "anchors": ["set.go:SetBytesWithOptions", "builder.go:valueToXML", "builder.go:setElement", "builder.go:replaceElement", "builder.go:replaceAttribute", "builder.go:createElement", "builder.go:appendElement", "builder.go:buildElementPathWithDepth", "builder.go:getResult"]}
{"id": "C79", "title": "Answers are bounded on every text", "statement": "Whatever text is given as a document, every value in the answer to a query without modifiers stays within limits: the text of an element is not longer than what it was read from (no entity ever expands), an attribute value has at most 1 MiB and one byte, a count is a number from 1 to 1000 with its exact float64 value, and a list contains only such values. At most 100 attributes of an element can be found, in all queries of all runs together. The conditions of a path never contain NUL, and those with an operator never contain tab, line feed or carriage return.", "quantifier": "for all environments, options, texts (well-formed or not, of any size), and paths that have steps without modifiers; for all lists of attribute names; for all paths with conditions", "why_tests_cant": "Tests of the limits use a few hostile documents; the claim is that no document at all, including ones that break off or confuse the parser, yields a value outside the limits.", "anchors": ["parser.go:parseAttributes", "parser.go:readUntil", "parser.go:unescapeXML", "get.go:executeQuery", "filter.go:parseFilterCondition", "docs/security.md"]}
{"id": "C80", "title": "The work of a query", "statement": "Counting the calls of the recursive search behind `**`: a path without `**` never searches; a path that starts with `**` and contains no other makes at most the documented 10,000 operations, on any text; in general k searches in a path, those in its conditions included, take at most 102^k times (1 + the number of `<` in the text) operations. The growth with k is real: on n nested elements (n at most 100) a path with m + 1 searches takes at least (n choose m + 1) operations.", "quantifier": "for all environments, texts (well-formed or not) and paths with steps, evaluated by Get; the lower bound for all n <= 100 and m <= 49", "why_tests_cant": "The bounds are about every text and path; and the query that breaks the documented bound cannot be run, it would need more than 10^29 operations.", "anchors": ["get.go:handleRecursiveWildcard", "get.go:recursiveSearchWithContext", "get.go:executeQuery", "docs/security.md", "doc.go"]}
{"id": "C81", "title": "Fragments put together", "statement": "Valid documents written one after the other are a valid document, as long as their size stays within the limit. What a path (names, indices, then the element, its attribute, text, count or children) finds in an ordinary document, it finds just the same when any text follows, well-formed or not. A document in front that has no element with the first name of a path changes nothing: every path that starts with that name answers as on the rest alone. Counting the roots of a name adds up over the parts.", "quantifier": "for all valid documents a, b; for all trees and every way of writing them, every prolog in front and every text behind, up to 10 MiB; for all paths of the described form; for all orders of map iteration", "why_tests_cant": "Tests join a few fixed fragments; the theorems hold for every pair of fragments, and for arbitrary malformed text as the second part.", "anchors": ["README.md: XML Fragments (Multiple Roots)", "validate.go:ValidateWithError", "get.go:executeQuery", "get.go:collectFragmentRoots"]}
{"id": "C82", "title": "The work of a query grows linearly with the document", "statement": "The number of elements a query meets, counting every pass over a text as one more, is at most the effort of the path times one plus the number of `<` in the document. Every step of the path counts 1 towards the effort, a condition also the effort of its own path, and a `**` multiplies the effort of what follows by 102. So without `**` the count is at most twice the length of the path times the number of `<` (plus one), and every `**`, also within conditions, adds a factor of at most 102.", "quantifier": "for all documents, well-formed or not; for all paths that can be parsed; for all orders of map iteration", "why_tests_cant": "Tests and benchmarks time a few documents and paths; a path whose work grows with the square of the document, e.g. by scanning the whole document again for every element, shows only on the document that provokes it.", "anchors": ["get.go:executeQuery", "get.go:recursiveSearchWithContext", "get.go:handleFilterQueryOnMatches", "doc.go: Performance", "docs/security.md"]}
{"id": "C83", "title": "The work of an edit grows linearly with the document", "statement": "Counting every pass over a text as one and adding the elements found in it, a removal along a path of n steps counts at most n plus the number of `<` in the document; a change counts at most n + 6 times that, plus twice the number of `<` in the path itself. As no usable path has more than 100 steps, every edit is linear in the document, also one that creates the elements on the way and then looks for them again to set an attribute.", "quantifier": "for all documents, paths, values and options whose indentation contains no `<`; for all orders of map iteration", "why_tests_cant": "An edit looks for every prefix of its path and may then search the document it has just written; a search that starts again for every element would be quadratic and would show only on the large documents for which the size limits are meant.", "anchors": ["builder.go:setElement", "builder.go:createElement", "builder.go:createElementForAttribute", "builder.go:appendElement", "builder.go:deleteElement", "set.go:SetWithOptions", "set.go:DeleteBytesWithOptions"]}
{"id": "C84", "title": "The work of a query under options grows linearly with the document", "statement": "For GetWithOptions, too, and whatever the options are: counting every pass over a text as one and adding the elements found in it, a query counts at most twice the length of the path times one more than the number of `<` in the document; every `**` in the path multiplies this by at most 102.", "quantifier": "for all texts, well-formed or not, all paths that have steps, all options and all orders of map iteration", "why_tests_cant": "The variants with options are separate code (executeQueryWithOptions and everything below it); a pass repeated per element or per attribute there is invisible to tests on small documents and to every benchmark without options.", "anchors": ["get.go:GetBytesWithOptions", "get.go:executeQueryWithOptions", "get.go:recursiveSearchWithContextAndOptions", "get.go:handleWildcardMatchesWithOptions", "get.go:executeFieldExtractionWithOptions"]}
{"id": "C85", "title": "Markup inside comments is invisible to queries", "statement": "On a document whose comments contain markup (elements commented out, texts with `>`), every query finds exactly what it designates in the tree in which a comment has no elements: nothing inside a comment is ever matched, counted, indexed, searched or selected by a condition on attributes, counts or presence. Attributes and counts are byte for byte those of the document with the comments removed. The text of an element is not: String() of an element around such a comment shows words of the comment.", "quantifier": "for all documents written from trees with such comments, texts with `>` and CDATA sections, all paths and queries of the language whose conditions do not compare element text, and all orders of map iteration", "why_tests_cant": "The parser meets a comment in two places, between the elements of a level and inside the content of an element, and the content is rewritten before it is scanned again on the next level; an element of a comment that leaks at one depth or behind one kind of sibling is not seen in a few handwritten documents.", "anchors": ["parser.go:parseElementContent", "parser.go:skipToNextElement", "get.go:executeQuery"]}
{"id": "C86", "title": "Edits pass over markup inside comments", "statement": "On a valid document whose comments contain markup (elements commented out, texts with `>`), Set, SetRaw, Delete and appending act on the elements outside the comments: after any sequence of edits the document is the text of the edited tree with every untouched comment byte for byte, it is valid, and every path query answers from the edited tree. With `>` inside an attribute value this is false: Set reports success and leaves a document that is not valid.", "quantifier": "for all documents written from trees with such comments, texts with `>` and CDATA sections, all sequences of edits of elements and attributes, and all orders of map iteration", "why_tests_cant": "An edit computes byte offsets from rewritten contents; a comment with markup that shifts one offset corrupts the document only for particular positions of the comment relative to the edited element, at any depth and after any earlier edits.", "anchors": ["builder.go:findElementLocation", "builder.go:appendElement", "parser.go:parseElementContent"]}
{"id": "C87", "title": "Lists kept in a document", "statement": "Appending values one after the other with the same path (index -1), by single calls or by SetMany, puts them in the order of the calls behind the last element the path names and changes nothing else in the document; the entries are then read back under consecutive numbers after the old ones, and the count grows by their number. Deleting the path again and again removes the elements it names from the first to the last, one per call, nothing else, and has no effect once none is left. Every document on the way is valid.", "quantifier": "for all canonical documents, all located parents, all lists of texts, numbers, booleans and fragments, any number of calls, and all orders of map iteration", "why_tests_cant": "A loop of calls passes every length of list and every position of the list among its siblings; an append that goes wrong after an element of another name, or a delete that skips an element when its neighbour is of the same name, shows only in particular arrangements.", "anchors": ["builder.go:appendElement", "set.go:SetMany", "set.go:Delete"]}
{"id": "C88", "title": "A document used as a table", "statement": "Let rows be the elements of one name in one element of a document, each with one child per field. Any sequence of table operations carried out through the library - SetRaw to the index -1 for a new row, Set of a field of a row (which changes it or adds it), Delete of a row or of a field - leaves a valid document that answers like the table after the operations: the count of rows, the field of the row with a number, the list of all values of a field, the field of the first row whose other field has a given value, and the fields of all such rows. Rows and fields not named by an operation keep their values, and other children of the element are left alone.", "quantifier": "for all canonical documents, all tables in them, all sequences of operations with rows in range within the size limit, all field names without prefix, all values, and all orders of map iteration", "why_tests_cant": "The table and the sequence of operations are unbounded; an edit that hits a neighbouring row, or a lookup that reads a field of another row, depends on which fields and rows the operations before have left.", "anchors": ["set.go:SetRaw", "set.go:Set", "set.go:Delete", "get.go:handleFilterQueryOnMatches", "get.go:executeFieldExtraction"]}
{"id": "C89", "title": "Sessions of edits under different options", "statement": "A document may be edited by any sequence of SetWithOptions and DeleteBytesWithOptions calls in which every call has its own options. After the sequence the document is the text of the tree the edits lead to, in which a path is matched with or without regard to case as the options of its call say, new names are written as given or in lower case, and new elements stand on lines of their own indented as the options say. The document is valid; Get, and GetWithOptions without CaseSensitive, answer every query from that tree. Indentation has no other effect: the same calls with other indentations lead to trees that differ in white space between tags only, with the same attributes and counts. With CaseSensitive and no indentation the edits are those of Set and Delete.", "quantifier": "for all canonical documents, all sequences of text, attribute, append and delete calls that leave an element and stay within the size limit, each with any case setting and any indentation of white space, all queries, and all orders of map iteration", "why_tests_cant": "Later calls meet the white space and the spellings that earlier ones left; an edit that locates the place with one rule for names and writes with another, or an indentation that becomes part of a value, shows only for particular mixtures of options, which are unbounded.", "anchors": ["set.go:SetWithOptions", "set.go:DeleteBytesWithOptions", "builder.go:appendElement", "builder.go:buildElementPathWithDepth", "get.go:GetWithOptions"]}
{"id": "C90", "title": "What follows the answer has no influence", "statement": "Let a path lead to an element of a document, and cut the document off behind that element. Whatever bytes take the place of the rest - nothing, other markup, damaged tags, open comments - a query whose path leads to the element and finds something in it (its content, text, an attribute, a descendant, a count or list of its children) returns what it returns on the whole document. In particular values near the beginning of a truncated or damaged document are read correctly. This holds for complete elements only, not for what stands before the element, and not for counts of the element's siblings.", "quantifier": "for all canonical beginnings of documents, all paths of names and indexes below 1000 whose first step is a name, all continuations of the path, all bytes in place of the rest within the size limit, and all orders of map iteration", "why_tests_cant": "The bytes after the element are arbitrary, and the content of every enclosing element is scanned to its end and rewritten before the search goes on inside it; whether some continuation changes what was read before cannot be found by trying damaged documents.", "anchors": ["parser.go:parseElementContent", "parser.go:skipToNextElement", "get.go:executeQuery", "docs/performance.md:253-265", "docs/error-handling.md:No Panics Guarantee"]}
{"id": "C91", "title": "Copying elements with Raw and SetRaw", "statement": "The Raw of an element found by Get, given to SetRaw for another element of the same or of another document, makes that element's content a copy: the call succeeds, the document around the element is unchanged byte for byte, and every query that finds something below the original (text, descendants, their attributes, counts, lists of children) finds the same below the copy. Attributes of the element itself are not copied.", "quantifier": "for all canonical documents, all pairs of elements reached by paths of names and indexes below 1000 (the target not self-closing), all continuations of the paths, and all orders of map iteration, within the size limits", "why_tests_cant": "Raw is not a piece of the document but written anew while the content is scanned, with the attributes in map order, and SetRaw has its own check of fragments; that the two agree on every tree is a statement about unboundedly many trees and orders.", "anchors": ["parser.go:parseElementContent", "set.go:SetRaw", "set.go:validateRawXML", "get.go:executeQuery", "builder.go:replaceElement"]}
{"id": "C92", "title": "Truncated and concatenated documents", "statement": "Valid notices truncation: a document cut anywhere inside one of its outermost elements is not valid, and a document whose only root element comes last has no valid proper prefix at all. Text that follows a valid document is judged without regard to that document: after any two valid documents the same text is accepted or rejected alike, and when it is rejected ValidateWithError gives the same message and the same place in the text. Valid documents written one after the other form a valid document.", "quantifier": "for all canonical documents and all places to cut them; for all valid documents and all texts that follow them (any bytes), within the size limit of the validator", "why_tests_cant": "A document has as many prefixes as bytes, and which of them could pass depends on how every token ends; that no state of the validator survives the end of a root element is a statement about all pairs of documents.", "anchors": ["validate.go:Valid", "validate.go:ValidateWithError", "validate.go:validate", "validate.go:parseTag", "validate.go:parseClosingTag"]}
{"id": "C93", "title": "A document as a store of values under paths", "statement": "A document can be used as a store of values: after any sequence of Set and Delete calls on keys (paths of names, with or without an attribute at the end), of which none leads through another, Get of every key answers like a plain map that went through the same operations. The content of an entry is what was last set (with the white space around it removed), its attributes are those last set and not deleted, an entry that was deleted or never set is Null, and writing or deleting one key changes no other one, however many parents they share. Missing parents are created, every operation is possible up to the limits, the document stays valid throughout, and the store may begin with the empty document.", "quantifier": "for all sets of keys without prefixes of one another, all canonical documents that hold each key at most once, all operation sequences (any length, any values) within the limits", "why_tests_cant": "The claim compares the document with a map after every sequence of operations over every set of keys; tests fix a few keys and calls and never look at all the other keys after each call.", "anchors": ["set.go:Set", "set.go:SetBytes", "builder.go:setElement", "builder.go:createElement", "builder.go:replaceAttribute", "set.go:Delete", "builder.go:deleteElement", "builder.go:deleteAttribute", "get.go:Get"]}
{"id": "C94", "title": "The content of an element is a document of its own", "statement": "Working on part of a document in place and working on that part as a separate document come to the same: take an element that a path leads to without ambiguity, and perform any sequence of edits either on the whole document with paths that begin with the path of the element, or on the content of the element with the remaining paths. The calls succeed both ways, and afterwards every query below the element (on the whole document) gets an answer with the same type, text, number and entries as the short query on the part. A text that is valid by itself can be put between the tags of an element; the only objection validation can have is the nesting depth.", "quantifier": "for all canonical documents, all pinned elements (unique names or indexes below 1000 on the way), all edit sequences and all queries of the path language of C28 that do not begin with a count or an index; for wrapping: all valid texts", "why_tests_cant": "It relates two runs of the library on different documents for every element, every sequence of edits and every query; tests check single calls on fixed documents.", "anchors": ["set.go:Set", "set.go:Delete", "get.go:Get", "get.go:executeQuery", "builder.go:findElementLocation", "builder.go:createElement", "builder.go:appendElement", "builder.go:deleteElement", "validate.go:validate"]}
{"id": "C95", "title": "The work of batches of edits", "statement": "SetMany and DeleteMany do the work of the single calls one after the other: the number of passes over texts and elements found (the count of C83) of a successful batch is the sum of the counts of the single calls, each on the document the previous one left; for DeleteMany repeated paths are paid once. Removing elements never adds a `<`, so a DeleteMany of elements costs at most the number of paths times 100 plus the number of `<` in the given document. Appending j values to a list in an element that has k child elements costs at least j(2k+j+1)/2, because every call looks at all the children again. So the claim of the documentation that batches parse the document once does not hold: a batch can look at more than 1000 elements for every path and every byte of its result.", "quantifier": "for all documents, paths and values and all map orders; for the lower bound: all canonical documents, all elements located by a path, all lists of texts whose result stays within 10 MB", "why_tests_cant": "It bounds the work for all batch sizes and documents; benchmarks time three operations on one document.", "anchors": ["set.go:SetMany", "set.go:DeleteMany", "set.go:SetWithOptions", "set.go:DeleteBytesWithOptions", "builder.go:appendElement", "builder.go:findLastMatchPosition", "docs/performance.md:138"]}
{"id": "C96", "title": "A size budget for sequences of edits", "statement": "How long a document can become is known before the edits are made. Count the document with two tags for every element (at most twice its length), and for each Set the tags of its path, its written value and for attributes the name and 4 bytes more; for each append the tags of the new element and its content; nothing for Delete. If the sum is at most 10 MiB, then every edit of a sequence whose paths lead somewhere succeeds, the result is valid and within the sum, and it reads like the edited tree. For the store of C93 nothing else needs to be known: with legal operations under keys of which none leads through another, no deletion of the root, at most 100 attributes counted together (an attribute set again and again counts once) and a budget within 10 MiB, every operation succeeds and the document reads like the map. A round of operations made any number of times can only meet the size limit.", "quantifier": "for all canonical documents, all sequences of edits (SetText, SetInt, SetBool, SetRaw, attributes, deletions, appends), all map orders", "why_tests_cant": "The bound holds for every document and every sequence of edits of any length; the size limit is only met by documents no test builds up edit by edit.", "anchors": ["set.go:Set", "set.go:Delete", "builder.go:setElement", "builder.go:createElement", "builder.go:createInParent", "builder.go:appendElement", "builder.go:replaceAttribute", "parser.go:MaxDocumentSize"]}
{"id": "C97", "title": "Any element can be turned into any other of its name", "statement": "The edits of the library are complete: whatever content K and attributes b an element is to have, SetRaw of K on its path, Delete of each attribute it has and b has not, and Set of each attribute of b succeed one after another, and then the path leads to an element with exactly these attributes and this content, everything around it is as before (up to the order of the attributes of one element), the document is valid, and all queries answer as on the wanted tree. For an element written with one tag, a Set of any child in it comes first. Starting from no document at all the same script writes every document of one element, provided its values are within the limits.", "quantifier": "for all canonical documents, all paths to elements, all wanted attributes and contents within the limits, all map orders", "why_tests_cant": "It says that every one of the infinitely many trees can be reached from every other one, and by which calls.", "anchors": ["set.go:Set", "set.go:SetRaw", "set.go:Delete", "builder.go:setElement", "builder.go:createElement", "builder.go:replaceAttribute", "builder.go:deleteAttribute"]}
{"id": "C98", "title": "Loops over numbered elements", "statement": "Two loops every user of the library writes do what they look like. Read n with Get(path.#).Int(). For i from 0 to n-1, Set(path.i, f(Get(path.i))) - or f of an attribute of element i - replaces the content of every element of the name by the function of what it said before, each exactly once, and leaves all other bytes alone. For i from n-1 down to 0, Delete(path.i) if a test accepts what Get(path.i) (or an attribute of it) says removes exactly the accepted elements and no other byte. Both documents are valid. Deleting upwards with the numbers counted before skips elements, because the numbers move up (refuted instance).", "quantifier": "for all canonical documents, all paths to an element with two tags, all names with up to 1000 elements there, all functions and tests on texts, all map orders", "why_tests_cant": "The loops read and write the same document in turns, for any number of elements, any function and any test; each round relies on the numbering after all the rounds before.", "anchors": ["get.go:Get", "set.go:Set", "set.go:Delete", "result.go:Int", "builder.go:setElement", "builder.go:deleteElement", "builder.go:findElementLocation"]}
{"id": "C99", "title": "A document as a queue", "statement": "A list in a document can be used as a queue with two ends. Set(path.-1, v) puts an entry at the end; Get(path.0) followed, if it exists, by Delete(path.0) takes the first out; the same with the number Get(path.#).Int() - 1 takes the last out. Any sequence of such operations, on a list with entries already in it or without, answers exactly as a list of texts does (texts without the space around them), says that there is nothing when the list is empty, and leaves a valid document that holds the entries of the list, with the other children of the parent and all bytes around it unchanged. In particular entries come out in order from the front, and in reverse from the end. If another element bears the name of the parent, an empty list is not noticed: Get reports an entry of the other list, Delete removes nothing (refuted instance).", "quantifier": "for all canonical documents, all parents each step of whose path only one element matches, all names of entries, all sequences of operations with at most 1000 entries, all texts, all map orders", "why_tests_cant": "Operations of three kinds are interleaved without bound, each one reading the document the one before has written; the answer depends on the whole past.", "anchors": ["get.go:Get", "set.go:Set", "set.go:Delete", "result.go:Exists", "result.go:Int", "builder.go:appendElement", "builder.go:deleteElement"]}
{"id": "C100", "title": "Characters and white space are those of Unicode", "statement": "The text of an element is reported without the white space around it, where white space means the 25 characters with the Unicode property White_Space in their UTF-8 encodings: all of it is removed at both ends, nothing else is, and bytes that are not UTF-8 count as text. So a text given to Set comes back exactly if it neither begins nor ends with such a character, and without these otherwise. Patterns in conditions are matched character by character: a question mark stands for one character however many bytes it takes, and every byte that does not begin the encoding of a scalar value counts as one character, U+FFFD. The limit on the work of a match counts characters. Characters of array texts are written in UTF-8.", "quantifier": "for all byte strings, valid UTF-8 or not, all canonical documents and paths, all patterns", "why_tests_cant": "Overlong, truncated and surrogate encodings at every place of a text, next to white space of two and three bytes, are too many to list.", "anchors": ["parser.go:extractTextContent", "parser.go:extractDirectTextOnly", "internal/pattern/match.go:Match", "result.go:String", "get.go:Get", "set.go:Set"]}
{"id": "C101", "title": "The entries of a list can be put into any order", "statement": "Exchanging the contents of two entries of a list (both read with Get and Raw, written back with SetRaw) and taking an entry to the end (SetRaw at index -1, then Delete), in any number and order, rearranges the contents as the same operations rearrange a list. No call reports an error, the document stays valid, the other children and every byte around the parent stay, and every query below an entry is answered from the content that has come there. Every order can be reached with exchanges. In particular a list can be sorted in the document by insertion, with the number of entries read from path.# and the keys read with Get(path.i.key).String(): afterwards the contents are a rearrangement of those before, none comes before a lesser one, and contents with equivalent keys keep their order. Attributes of the entries themselves do not move, and entries written as <i/> cannot take part.", "quantifier": "for all canonical documents of at most 5 MB, all paths to a parent, all lists of at most 1000 entries with any contents, all sequences of operations, all strict weak orders of keys", "why_tests_cant": "The number of sequences of exchanges, contents and orders is unbounded, and an edit that goes to a wrong entry may be hidden by a later one.", "anchors": ["get.go:Get", "set.go:SetRaw", "set.go:Delete", "result.go:Result", "builder.go:setElement"]}
{"id": "C102", "title": "Edits can be taken back", "statement": "A client that notes for every edit how it is undone can return to the document it began with: new content of an element is undone by SetRaw with the old content, a value at a path with missing elements by deleting the first new element, an attribute by its old value or its deletion, a deleted attribute by setting it, an appended entry by deleting the entry with the number the list had entries. After any sequence of such edits, the undoing calls, the last one first, all succeed and give a valid document of the same length and the same tree as at the beginning, with the same answer to every query; the same holds for returning to any state between. In documents in other notations (C71) everything holds as well, and the author's way to write what was not edited stays. Where no element has more than one attribute the old document comes back byte for byte. (With several attributes their order may differ, and a self-closing element that once got a child keeps two tags.)", "quantifier": "for all canonical documents, all sequences of edits within the limits, all map orders", "why_tests_cant": "Sequences of edits are unbounded, and an undoing call is made in a document that all earlier ones have shaped; an edit that touches a neighbour is only noticed if the test compares the whole document.", "anchors": ["set.go:Set", "set.go:SetRaw", "set.go:Delete", "builder.go:setElement"]}
{"id": "C103", "title": "Entries go from one list to another and none is lost or doubled", "statement": "An element holds several lists, one child per name, each with entries of one name (a board with jobs to do, in progress and done). A client moves an entry with three calls: Get of the entry and its Raw, SetRaw at path.-1 of the other list, Delete of the old entry. Any number of such moves between any of the lists always succeeds; afterwards the lists hold exactly what moving the same entries between lists in memory gives, in that order, so no content is lost or doubled; the other children, every byte around the element and the validity of the document stay, and what is asked below an entry is answered from the content that is there now. Moving the first entry as often as there are entries empties a list into another with the order kept. (Attributes of the entry's own tag do not go with it.)", "quantifier": "for all canonical documents of up to 5 MB, all positions, all numbers of lists and entries (numbers moved below 1000), all sequences of moves, all map orders", "why_tests_cant": "Moves can be combined without bound and within one list; a lost or doubled entry shows only for particular neighbours and numbers of entries in both lists.", "anchors": ["get.go:Get", "set.go:SetRaw", "set.go:Delete", "builder.go:setElement", "builder.go:deleteElement"]}
{"id": "C104", "title": "Numbers kept in a document add up", "statement": "Accounts (counters, balances) are elements found by paths of names, none of which leads through another; an account that is absent or blank stands for zero, an existing one may hold any decimal numeral with white space around it. A client adds an amount with Set(path, Get(path).Int() + z). Any number of such postings to any of the accounts in any order always succeeds while the sums stay in the range of int64: afterwards Get(path).Int() of every account is the exact sum, everything else kept under other paths and all attributes read as before, and the document is valid. How large the document can become depends only on the number of accounts and their names, not on the number of postings. Amounts moved between accounts leave the total alone, and the order of the postings does not matter. (A number with a fraction or beyond int64 counts as zero, with no error.) The same holds for counters kept in attributes, and for both kinds mixed, with at most 100 attributes: attributes and contents that are no counters read as before, except that an element made for its attribute has an empty content.", "quantifier": "for all canonical documents within the size limit, all accounts, all starting values and amounts within int64, all sequences of postings, all map orders", "why_tests_cant": "A sum over an unbounded sequence of read-modify-write cycles depends on every intermediate document; a digit lost for one value, or a value written next to the wrong account, need not show in any fixed example.", "anchors": ["get.go:Get", "result.go:Int", "set.go:Set", "builder.go:setElement", "builder.go:valueToXML"]}
{"id": "C105", "title": "The work of validation grows linearly with the document", "statement": "Valid, ValidBytes, ValidateWithError (and the validation Set and Delete do first) look at a document at most nine times per byte and nine times besides, whatever the bytes are: no nesting, no unclosed comment or CDATA section, no attribute list and no mismatched names make the work grow faster. A document that is found valid has been looked at in full. A document above MaxDocumentSize is refused without being looked at, so that the work is bounded for all inputs. The factor nine is reached.", "quantifier": "for all byte sequences", "why_tests_cant": "A bound on the work has to hold for the worst input of every length; timing some documents shows nothing about the input that makes a scanner restart.", "anchors": ["validate.go:validate", "validate.go:parseTag", "validate.go:parseOpeningTag", "validate.go:parseClosingTag", "validate.go:parseAttributesValidating", "validate.go:skipComment", "validate.go:skipCDATA", "validate.go:skipDOCTYPE"]}
{"id": "C106", "title": "A document can be copied value by value", "statement": "In a document every element is told from its siblings by its name and holds either a text or further elements, all possibly with attributes (a configuration file, say). A program goes through all texts and attributes and writes each to a new document, empty at first, with Set(new, path, Get(old, path).String()). No call fails and the new document is the old one again, up to the order of the attributes within a tag: it is valid, elements stand in the same order, and every query is answered alike. Where no element has more than one attribute the two documents are the same text. GetMany and SetMany over the list of paths do the same in two calls. (White space around a text is lost, and siblings with the same name become one.)", "quantifier": "for all such documents within the size and depth limits, all contents and attribute values, all map orders", "why_tests_cant": "Every intermediate document has another shape: parents are created on the way to the first value below them and filled later; an element created in the wrong place or order, or a value escaped differently by Set and read by Get, shows only for some shapes.", "anchors": ["get.go:Get", "result.go:String", "set.go:Set", "set.go:SetMany", "get.go:GetMany", "builder.go:createElement", "builder.go:setElement", "builder.go:replaceAttribute"]}
{"id": "C107", "title": "Documents can be laid over one another", "statement": "A base document (defaults) and any number of layers (settings of a site, of a user) hold values and attributes under keys, paths of names of which none leads through another. A program goes through the layers one after the other and, for every place of a list, does r := Get(layer, path); if r.Exists() { base = Set(base, path, r.String()) }. No call fails and the result is valid. Afterwards every place reads the value of the last layer that has it, if it is one of the places gone through, and otherwise what the base had; nothing else is added, lost or changed, except that an attribute given to an element that does not exist brings that element, empty. Doing it once more changes no answer, and layers of which no two have a value for the same place can be laid in any order. (A key with elements inside arrives as the text inside them.)", "quantifier": "for all base documents, all numbers of layers, all lists of places in any order and with repetitions, all contents and attribute values within the limits, all map orders", "why_tests_cant": "Every combination of present and absent values in base and layers goes a different way through Set (replace a content, create elements, add or replace an attribute), and each write is made to a document shaped by those before.", "anchors": ["get.go:Get", "result.go:Exists", "result.go:String", "set.go:Set", "builder.go:setElement", "builder.go:createElement", "builder.go:setAttribute"]}
{"id": "C108", "title": "What each option has an influence on", "statement": "GetWithOptions depends on CaseSensitive and on whether all options have their default values, and on nothing else in the options; DeleteWithOptions depends on CaseSensitive alone; SetWithOptions on CaseSensitive and Indent. PreserveWhitespace and Namespaces, documented as reserved, have no influence on edits, and none on queries that disregard case. Indent only puts lines in: for a path without attributes the document is the one made without Indent, with newlines put in, each followed by copies of Indent; the only other outcome is that appending fails because the document with those lines exceeds the size limit. (Two expectations fail: the zero value Options{} is not the default, contrary to its comment; and markup in Indent is written as it is, so that the result may be malformed although no error is reported.)", "quantifier": "for all texts, also malformed ones, all paths, all options and values, all map orders", "why_tests_cant": "Options are passed through every function of the builder and of the evaluation; that a field is never consulted, or only for the lines, is a statement about all documents and paths at once.", "anchors": ["options.go:Options", "options.go:isDefaultOptions", "get.go:GetWithOptions", "set.go:SetWithOptions", "set.go:DeleteWithOptions", "builder.go:buildElementPath", "builder.go:appendElement"]}
{"id": "C109", "title": "A document can be brought into agreement with another one", "statement": "A program goes through a list of places (contents and attributes), asks the document and a target with Get, sets what differs or is missing and deletes what the target does not have. No call fails; the result is valid; at every place of the list it has what the target has, and nothing where the target has nothing; under keys that are not in the list it has what it had. At most one edit is made for each place, none where the two agree, and a second pass returns the text unchanged. (Where a document has several elements under a key this fails: each pass deletes one of them.)", "quantifier": "for all documents and targets holding values under keys of which none leads through another, all lists of places in all orders, also with repetitions, all map orders, within the size limits", "why_tests_cant": "Which edits are made depends on the answers along the way, and edits of attributes and contents of the same element interact (a deleted element takes its attributes with it, an attribute makes its element); tests try a few orders.", "anchors": ["get.go:Get", "set.go:Set", "set.go:Delete", "result.go:Exists", "result.go:String"]}
{"id": "C110", "title": "A program cannot tell a document from a map", "statement": "Take any program that asks for contents and attributes with Get, edits them with Set and Delete, and chooses each question and each edit by the answers so far. Run on a document that holds values under keys, it makes the edits and ends with the answer that it would on the map of these values; no call fails; afterwards the document is valid and holds the values of the map at the end. Stopped after any number of calls it leaves a valid document with the values of the map after as many calls, and continued on it it ends as if it had not been stopped. So two documents with the same values, however they are laid out and ordered and whatever else they contain, are indistinguishable to every such program.", "quantifier": "for all programs (of any branching on the answers), all documents holding values under keys of which none leads through another, all prologs, all map orders, as long as the documents on the way stay within the limits", "why_tests_cant": "Quantifies over all adaptive programs: not over a list of edits fixed in advance but over strategies, whose next call depends on all answers before it.", "anchors": ["get.go:Get", "set.go:Set", "set.go:Delete", "result.go:Exists", "result.go:String"]}
{"id": "C111", "title": "A program cannot tell a document from its tree", "statement": "Take any program that asks with paths (elements, attributes, texts, counts, children; by names and indexes) and edits (contents of any kind, attributes, new entries, removals), choosing each call by the answers so far. Run on a document, in the notation of its author, it ends with the answer with which it ends on the element tree; no call fails; the document is then a text of the tree the program leaves, and valid. The same holds for programs that ask with every query of the language: filters, wildcards, descendants and fields. So documents of the same tree with different prologs and notations are indistinguishable to every such program.", "quantifier": "for all programs (of any branching on the answers), all documents in the notations of C71, all prologs, all map orders, as long as edits are defined on the tree and documents on the way stay within the limits", "why_tests_cant": "Quantifies over all adaptive programs, whose next call depends on all answers before it, and over all notations of a document.", "anchors": ["get.go:Get", "set.go:Set", "set.go:SetRaw", "set.go:Delete", "result.go:Exists", "result.go:String"]}
{"id": "C112", "title": "Programs with keys of their own can share a document", "statement": "Two programs take turns on one document, call by call, each choosing its calls by the answers it got. If they have no key in common, then in every interleaving no call fails, each program ends with the answer with which it ends alone, and leaves under its keys the values that it leaves alone. (Programs that share a key are not isolated: between the Get and the Set of one another may write, whose value is lost.) The same holds for any number of programs.", "quantifier": "for all pairs of programs (and so any number of them), all interleavings, all documents holding values under keys of which none leads through another, all map orders, within the limits", "why_tests_cant": "Quantifies over all interleavings of all adaptive programs; every edit rewrites the document that all share, so that a change in a neighbouring element, an attribute order or a new parent could leak into another session.", "anchors": ["get.go:Get", "set.go:Set", "set.go:Delete"]}
{"id": "C113", "title": "Deleting elements only takes text out, and comes to an end", "statement": "What Delete (and Set with nil) returns without an error for a path without an attribute is the text given, or the text given without one non-empty stretch of it; DeleteMany takes out any number of stretches. So deletions that change the text are at most as many as it has bytes, and the loop that deletes at a path until the text no longer changes ends for every text, at a text on which Delete has no effect; on a canonical document it ends without an error, with a valid document in which nothing is at the place.", "quantifier": "for all texts, well-formed or not, all paths without '@', all options, all map orders, all sequences of deletions", "why_tests_cant": "Quantifies over all texts including those the scanner misreads, where the positions of the stretch come from a nested search; one in which the end lay at or before the start would duplicate text and let the loop grow the document for ever.", "anchors": ["set.go:DeleteWithOptions", "set.go:DeleteMany", "builder.go:deleteElement", "builder.go:findElementLocation"]}
