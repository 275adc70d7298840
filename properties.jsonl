{"id": "C01", "title": "Parse accepts every JSON text and returns its tree", "statement": "For every RFC 8259 JSON value text w, any insignificant whitespace before it and any continuation that does not extend a number token, Document.Parse(ws+w+tail) returns a nil error, the tail unchanged and a Node whose tree (types, raw scalar text, element order, key order) is exactly the value w denotes.", "quantifier": "all JSON texts of any size and nesting depth, all leading whitespace, all tails, all documents parsed into", "why_tests_cant": "The set of JSON texts is infinite and recursive; the string scanner has a fast path whose correctness depends on what precedes the first quote, so any finite suite can miss the failing shape.", "anchors": ["parser.go:Document.Parse", "parser.go:parser.parseValue", "parser.go:parser.parseArray", "parser.go:parser.parseObject"]}
{"id": "C02", "title": "Parse accepts exactly its documented lenient grammar", "statement": "Document.Parse(s) succeeds with a tree and a tail if and only if s splits as whitespace, a value text and that tail, where value texts follow the JSON grammar except that number tokens are any maximal run of bytes starting with '-' or a digit and string contents are only delimited (not validated). The tree and the tail are unique.", "quantifier": "all byte strings s, trees and tails", "why_tests_cant": "An iff over all strings: tests can only show individual acceptances and rejections.", "anchors": ["parser.go:parser.parseValue", "parser.go:parser.parseArray", "parser.go:parser.parseObject", "bytemaps.go"]}
{"id": "C03", "title": "Parse always terminates with a classified result", "statement": "For every input string Parse returns one of: a node with nil error, an UnexpectedEOF error, or a *ParseError; the recursion always finishes, and its depth is bounded by the length of the input.", "quantifier": "all byte strings and all prior document states", "why_tests_cant": "Absence of divergence and of out-of-range access on all inputs is a universal statement.", "anchors": ["parser.go:Document.Parse", "parser.go:parser.parseValue", "parser.go:parser.parseArray", "parser.go:parser.parseObject"]}
{"id": "C04", "title": "Parse result strings and error positions point into the input", "statement": "On success the consumed text followed by the returned tail is the input; on UnexpectedEOF the returned string is the input itself and the node is the empty Node; on *ParseError the returned string is empty, Pos() is smaller than len(input), and the reported token is the text found at Pos().", "quantifier": "all byte strings", "why_tests_cant": "Off-by-one errors in position arithmetic show only for particular layouts of whitespace, nesting and token lengths.", "anchors": ["parser.go:Document.Parse", "parser.go:parser.abort", "parser.go:parser.eof", "error.go:ParseError.Pos"]}
{"id": "C05", "title": "Parse errors and completed parses are stable when more input arrives", "statement": "If Parse(s) reports a *ParseError then Parse(s+t) reports the same *ParseError for every t. If Parse(s) succeeds with tail r, then Parse(s+t) succeeds with the same tree and tail r+t unless the value is a bare number that reached the end of s.", "quantifier": "all byte strings s and t", "why_tests_cant": "Quantifies over every possible continuation of every input (all chunkings of a stream).", "anchors": ["parser.go:Document.Parse", "parser.go:parser.parseValue"]}
{"id": "C06", "title": "UnexpectedEOF means that more input can complete the document", "statement": "Parse(s) returns UnexpectedEOF only if some continuation t makes Parse(s+t) succeed; and every proper prefix of a complete text (other than a prefix of a bare number) is reported as UnexpectedEOF, so a caller may append data and re-parse.", "quantifier": "all byte strings s, all continuations, all proper prefixes of accepted texts", "why_tests_cant": "Existential over all continuations, universal over all truncation points.", "anchors": ["parser.go:Document.Parse", "error.go:UnexpectedEOF"]}
{"id": "C07", "title": "Parsing does not disturb existing nodes; a failed parse changes nothing", "statement": "After Parse returns an error the document has exactly the nodes it had before; after a successful Parse every previously existing node keeps its type, raw text and children, and the new tree uses only fresh node ids.", "quantifier": "all documents, all inputs, any number of parses into one document", "why_tests_cant": "The parser writes into recycled storage of the same document; corruption depends on the history of earlier parses, failures and resets.", "anchors": ["parser.go:Document.Parse", "parser.go:Document.parser", "parser.go:parser.node", "parser.go:appendV"]}
{"id": "C08", "title": "AppendJSON of a parsed document is the minified input", "statement": "If Parse(s) succeeds then AppendJSON on the returned node appends exactly the consumed text with the whitespace between tokens removed, byte for byte, without error.", "quantifier": "all byte strings s and all destination buffers", "why_tests_cant": "Needs induction over arbitrary nesting; tests compare a few literals.", "anchors": ["document.go:Document.appendJSON", "node.go:Node.AppendJSON", "parser.go:Document.Parse"]}
{"id": "C09", "title": "Parse and AppendJSON round-trip", "statement": "For every document tree obtained by parsing, AppendJSON followed by Parse (into any document) succeeds with an empty tail and yields an equal tree; serialising again yields identical bytes.", "quantifier": "all accepted inputs", "why_tests_cant": "Induction over all trees; depends on the scanner re-accepting every string and number token that it produced.", "anchors": ["document.go:Document.appendJSON", "parser.go:Document.Parse"]}
{"id": "C10", "title": "Documents built through the API serialise to JSON that parses back to them", "statement": "For every document built with Object/Array/Text/TextHTML/Number/True/False/Null and Set/Append, AppendJSON produces text that Parse accepts completely and that denotes the same tree.", "quantifier": "all strings passed to Text, all trees, all finite numbers", "why_tests_cant": "Ranges over all strings and trees, including those with quotes and backslashes in any position.", "anchors": ["document.go:Document.Text", "document.go:Document.appendJSON", "strjson/escape.go:Escaped", "parser.go:parser.parseValue"]}
{"id": "C11", "title": "Nodes of a reset or closed document are inert", "statement": "After Reset or Close, every Node obtained earlier behaves as an empty node: reads return the zero value/TypeInvalid/false, AppendJSON returns an error, Lookup/Get/Index return inert nodes, and every mutator called on it leaves every document unchanged.", "quantifier": "all documents, all histories, all earlier nodes, any number of resets below 2^64", "why_tests_cant": "Universal over histories between obtaining the node and using it, and over all methods.", "anchors": ["node.go:Node.get", "node.go:Node.Document", "document.go:Document.Reset", "document.go:Document.Close"]}
{"id": "C12", "title": "Set behaves like assignment in an ordered map", "statement": "After obj.Set(k, v) with a valid object and value in a document whose trees are well formed, Get(k) denotes the tree v denoted, every other key of obj denotes what it did, the key order is preserved with a new key going last, and the number of entries grows by one exactly when k was absent.", "quantifier": "all objects, keys and values (same document, other document, orphan or attached)", "why_tests_cant": "The adopt/copy decision depends on flags set by the whole history of the document.", "anchors": ["node.go:Node.Set", "document.go:Document.copyOrAdopt", "document.go:Document.ncopy"]}
{"id": "C13", "title": "Get returns the first entry with the key", "statement": "Node.Get(k) on an object returns the value of the first entry whose raw key equals k, and an inert node when there is none or the node is not an object.", "quantifier": "all objects including ones with duplicate keys, all keys", "why_tests_cant": "Duplicate keys and arbitrary sizes.", "anchors": ["node.go:Node.Get"]}
{"id": "C14", "title": "Del removes a key", "statement": "After obj.Del(k), Get(k) finds nothing, every other entry of the object is still present with the same value, nothing else is added, and nothing happens when k was absent.", "quantifier": "all objects and keys", "why_tests_cant": "The swap-with-last deletion behaves differently by position and in presence of duplicates.", "anchors": ["node.go:Node.Del"]}
{"id": "C15", "title": "Array operations follow list semantics", "statement": "Append adds the given values in order at the end; Index(i) returns the i-th element or an inert node out of range; Replace(i,v) changes only element i; Remove(i) deletes exactly element i keeping the order; invalid indices change nothing.", "quantifier": "all arrays, indices and values", "why_tests_cant": "All sizes and boundary indices, with values from any document.", "anchors": ["node.go:Node.Append", "node.go:Node.Index", "node.go:Node.Replace", "node.go:Node.Remove"]}
{"id": "C16", "title": "Slice(i, j) keeps the elements i..j-1", "statement": "For 0 <= i <= j <= len, Slice(i,j) leaves exactly the elements at offsets i to j-1 in order; other arguments change nothing.", "quantifier": "all arrays and all index pairs", "why_tests_cant": "Boundary behaviour for every length.", "anchors": ["node.go:Node.Slice"]}
{"id": "C17", "title": "No sequence of API calls creates a cycle", "statement": "After any sequence of parse, construct, Set, Append, Replace and other calls on any documents, no node is reachable from itself, so AppendJSON, ToInterface and copying terminate.", "quantifier": "all finite histories of API calls over any number of documents", "why_tests_cant": "Needs an inductive invariant over histories; a cycle shows up only after a particular sequence.", "anchors": ["document.go:Document.copyOrAdopt", "node.go:Node.Set", "node.go:Node.Append", "node.go:Node.Replace"]}
{"id": "C18", "title": "No node is shared between two parents", "statement": "After any sequence of API calls every node has at most one parent entry, so modifying a value through one path never changes what another path shows.", "quantifier": "all finite histories of API calls", "why_tests_cant": "Sharing arises only from particular histories of copying between documents and re-attaching.", "anchors": ["document.go:Document.ncopy", "document.go:Document.copyOrAdopt"]}
{"id": "C19", "title": "Mutations are local", "statement": "A mutator called on a node n changes the tree denoted by a node m only if n is m or a descendant of m; siblings, other roots and other documents are unaffected.", "quantifier": "all documents, nodes and mutators", "why_tests_cant": "Frame property over all nodes of all documents.", "anchors": ["node.go:Node.Set", "node.go:Node.Append", "node.go:Node.Replace", "node.go:Node.Remove", "node.go:Node.Slice", "node.go:Node.Del", "node.go:Node.SetInt", "document.go:Node.reset"]}
{"id": "C20", "title": "Copies between documents are deep", "statement": "When a value of another document (or an attached value) is set or appended, the stored value denotes the same tree at that time, uses only fresh nodes of the target document, and no later mutation of the source changes it.", "quantifier": "all source trees, all later mutations of the source", "why_tests_cant": "Quantifies over all subsequent histories of the source.", "anchors": ["document.go:Document.ncopy", "document.go:Document.copyOrAdopt"]}
{"id": "C21", "title": "Strip deletes the key everywhere below the node", "statement": "After n.Strip(k) no object below n (through object members and array elements) has an entry with key k, and every other entry reachable before is still there.", "quantifier": "all trees and keys", "why_tests_cant": "Recursive property over all shapes, including objects nested in arrays and duplicate keys.", "anchors": ["node.go:Node.Strip"]}
{"id": "C22", "title": "Lookup follows the path", "statement": "Lookup(p1..pn) equals following Get for object steps and Index for array steps with the step read as a decimal number, and is inert when any step is missing or is not a number in range.", "quantifier": "all documents and all paths", "why_tests_cant": "All path lengths and all numerals, including very long ones.", "anchors": ["document.go:Document.lookup", "node.go:Node.Lookup"]}
{"id": "C23", "title": "Iterators enumerate the values exactly once in order", "statement": "Iterating Values() with Next yields every entry (key and node) of the node exactly once in order with Index() 0..len-1, then Next keeps returning false until Reset; Len() is the number of entries.", "quantifier": "all nodes and iteration lengths", "why_tests_cant": "Induction over the number of Next calls.", "anchors": ["node.go:Node.Values", "node.go:IterV.Next", "node.go:IterV.Reset", "node.go:IterV.Index"]}
{"id": "C24", "title": "ToInterface returns the Go value of the tree", "statement": "ToInterface on a well-formed tree returns nested []interface{}/map[string]interface{}/string/float64/bool/nil values with the same structure, where strings are unescaped and later duplicates of a key win; it fails exactly when some number in the tree does not parse.", "quantifier": "all trees", "why_tests_cant": "Recursive over all trees.", "anchors": ["document.go:Document.toInterface", "document.go:Document.toInterfaceMap", "document.go:Document.toInterfaceSlice"]}
{"id": "C25", "title": "Scalar setters determine what the node reads back", "statement": "After SetString/SetStringHTML/SetStringRaw/SetInt/SetUint/SetTrue/SetFalse/SetNull the node has the corresponding type and text, no children, keeps its place in the tree, and the matching accessor returns the value that was set.", "quantifier": "all nodes (scalar or container) and all values", "why_tests_cant": "Ranges over all 64-bit integers and all strings.", "anchors": ["node.go:Node.SetInt", "node.go:Node.SetUint", "node.go:Node.SetString", "node.go:Node.ToInt", "node.go:Node.ToBool"]}
{"id": "C26", "title": "Unescaping an escaped string returns it", "statement": "Unescaped(Escaped(s, html, false)) equals s for every valid UTF-8 string s and either html flag; for arbitrary bytes it equals s with every invalid byte replaced by U+FFFD.", "quantifier": "all byte strings, both flags", "why_tests_cant": "All strings of all lengths over all code points.", "anchors": ["strjson/escape.go:Escaped", "strjson/unescape.go:Unescaped"]}
{"id": "C27", "title": "Escaped output is safe JSON string content", "statement": "For every byte string s, Escaped(s,html,false) is the content of a valid JSON string: it has no bare quote, backslash or control byte, is valid UTF-8, contains no U+2028/U+2029, and with html=true no '<', '>' or '&'. With quoted=true it is that content between quotes.", "quantifier": "all byte strings, all flags", "why_tests_cant": "Safety over all inputs including malformed UTF-8.", "anchors": ["strjson/escape.go:Escaped", "strjson/bytemaps.go"]}
{"id": "C28", "title": "AppendEscaped equals appending Escaped", "statement": "AppendEscaped(dst, s, html) returns dst followed by Escaped(s, html, false) and leaves dst's bytes as they were.", "quantifier": "all dst and s, both flags", "why_tests_cant": "Two separately written loops must agree on every input.", "anchors": ["strjson/escape.go:AppendEscaped", "strjson/escape.go:Escaped"]}
{"id": "C29", "title": "Unescape in a buffer as long as the input equals Unescaped", "statement": "With len(dst) >= len(s), Unescape(dst, s) never writes outside dst, writes exactly Unescaped(s) at the start of dst, leaves the rest of dst unchanged and returns its length; so unescaping never lengthens a string. AppendUnescaped(dst,s) is dst followed by Unescaped(s).", "quantifier": "all s (valid or malformed escapes) and all buffers", "why_tests_cant": "The size claim must hold for all malformed inputs as well.", "anchors": ["strjson/unescape.go:Unescape", "strjson/unescape.go:AppendUnescaped", "strjson/unescape.go:Unescaped"]}
{"id": "C30", "title": "Unescaped gives JSON strings their RFC 8259 meaning", "statement": "For every valid JSON string content, Unescaped returns the UTF-8 encoding of the characters it denotes: two-character escapes, \\uXXXX escapes and surrogate pairs, with unpaired surrogates shown as U+FFFD and everything else unchanged.", "quantifier": "all valid string contents", "why_tests_cant": "All combinations of escapes, including every surrogate combination.", "anchors": ["strjson/unescape.go:Unescaped"]}
{"id": "C31", "title": "Unescaped leaves malformed escapes unchanged", "statement": "A backslash that does not start a valid JSON escape is kept as it is, and so is a \\u not followed by four hexadecimal digits.", "quantifier": "all byte strings", "why_tests_cant": "All malformed inputs.", "anchors": ["strjson/unescape.go:Unescaped", "strjson/bytemaps.go:bytemapFromHex"]}
{"id": "C32", "title": "Byte classification tables agree with their definitions", "statement": "For each of the 256 byte values the generated lookup tables agree with the predicates they stand for: JSON whitespace, digits, number terminators, hex digits, and JSON/HTML escapes.", "quantifier": "all 256 bytes, all tables", "why_tests_cant": "Tables are opaque literals; tests sample some entries.", "anchors": ["bytemaps.go", "strjson/bytemaps.go", "numjson/bytemaps.go", "internal/bytemaper/bytemaper.go"]}
{"id": "C33", "title": "ParseFloat recognises numbers", "statement": "ParseFloat returns a non-NaN value for every string in the JSON number grammar, and NaN for every string that is not an optionally signed digit string with optional fraction and exponent.", "quantifier": "all strings", "why_tests_cant": "All strings; control flow with several gotos.", "anchors": ["numjson/numjson.go:ParseFloat"]}
{"id": "C34", "title": "ParseFloat is correctly rounded on integers", "statement": "For every decimal integer text the result is the float64 nearest to that integer (ties to even), with the sign applied, and exact when its magnitude is at most 2^53.", "quantifier": "all integer texts", "why_tests_cant": "Infinite domain, rounding behaviour.", "anchors": ["numjson/numjson.go:ParseFloat"]}
{"id": "C35", "title": "ParseFloat is close to the decimal value", "statement": "For every JSON number with a fraction or an exponent the result is within a small relative error of the exact decimal value.", "quantifier": "all number texts, arbitrarily many digits", "why_tests_cant": "Digit counters and accumulators overflow only on long inputs.", "anchors": ["numjson/numjson.go:ParseFloat"]}
{"id": "C36", "title": "ToInt and ToUint never return a wrong integer as ok", "statement": "Whenever ToInt/ToUint/ParseInt/ParseUint report ok for an integer text, the returned integer is the one written; non-integral, out-of-range and malformed numbers are reported as not ok.", "quantifier": "all number texts", "why_tests_cant": "64-bit domain and float rounding.", "anchors": ["node.go:Node.ToInt", "node.go:Node.ToUint", "numjson/numjson.go:ParseInt", "numjson/numjson.go:ParseUint"]}
{"id": "C37", "title": "Integers written by SetInt/SetUint read back", "statement": "After SetInt(i), ToInt returns i and ok; after SetUint(u), ToUint returns u and ok.", "quantifier": "all int64 and uint64 values", "why_tests_cant": "2^64 values; failures are above 2^53 only.", "anchors": ["node.go:Node.SetInt", "node.go:Node.ToInt"]}
{"id": "C38", "title": "AppendFloat's exponent clean-up keeps the number", "statement": "AppendFloat appends to dst a number text denoting the same decimal value as strconv's shortest text and never changes dst's earlier bytes; the notation switches to an exponent exactly below 1e-6 and from 1e21 on.", "quantifier": "all floats, all dst", "why_tests_cant": "All float values and formats.", "anchors": ["numjson/format.go:AppendFloat", "numjson/format.go:FormatFloat"]}
{"id": "C39", "title": "Type masks decompose into their member types", "statement": "Types() of a mask returns distinct single-bit types in increasing order whose union is the mask; the type of a node is independent of its root flag.", "quantifier": "all 256 masks, all info words", "why_tests_cant": "Exhaustive over masks; the flag/type separation is used everywhere.", "anchors": ["types.go:Type.Types", "types.go:info.Type", "types.go:info.Flags"]}
{"id": "C40", "title": "Unmarshal reverses Marshal", "statement": "For every value of a supported type, Unmarshal(Marshal(v)) into a zero value of the same type succeeds and yields v.", "quantifier": "all supported types (nested to any depth) and all their values", "why_tests_cant": "Infinite family of types and values.", "anchors": ["unjson/encode.go", "unjson/decode.go", "unjson/codec.go"]}
{"id": "C41", "title": "Marshal produces valid JSON or an error", "statement": "For every supported value Marshal either returns an error or text in the RFC 8259 grammar.", "quantifier": "all supported types and values", "why_tests_cant": "All values, including extreme floats and arbitrary strings.", "anchors": ["unjson/encode.go:structCodec.encode", "unjson/encode.go:floatEncoder.encode", "unjson/encode.go:textEncoder.encode"]}
{"id": "C42", "title": "Unmarshal reports values of the wrong type", "statement": "If some part of the JSON cannot be stored in the corresponding part of the target, Unmarshal returns an error.", "quantifier": "all types and all JSON trees", "why_tests_cant": "Any depth of nesting; error propagation through every container.", "anchors": ["unjson/decode.go:sliceDecoder.decode", "unjson/decode.go:arrayDecoder.decode", "unjson/decode.go:mapDecoder.decode"]}
{"id": "C43", "title": "Unmarshal does not panic on supported types", "statement": "Decoding any JSON tree into any supported target value (including nil maps, nil pointers and embedded nil pointers) returns normally, and decoded members are stored in the target.", "quantifier": "all types, targets and trees", "why_tests_cant": "All nil/non-nil combinations.", "anchors": ["unjson/decode.go:mapDecoder.decode", "unjson/codec.go:structCodec.decode"]}
{"id": "C44", "title": "omitempty drops exactly the empty fields", "statement": "A struct is encoded as an object with, in declaration order, exactly the exported fields that are not empty (for omitempty fields) or all (otherwise), each key once followed by the field's encoding, with correct separators.", "quantifier": "all struct types and values", "why_tests_cant": "All subsets of omitted fields.", "anchors": ["unjson/codec.go:encode", "unjson/omit.go"]}
{"id": "C45", "title": "Field tags are parsed as name plus hints", "statement": "Splitting a tag at commas, the first part is the name and each further part sets its hint; unknown hints are ignored.", "quantifier": "all tag strings", "why_tests_cant": "All tag strings.", "anchors": ["unjson/options.go:parseTag", "unjson/options.go:parseHints"]}
{"id": "C46", "title": "Shallower struct fields win name conflicts", "statement": "When embedded structs define the same JSON key, the field with the shortest path (then the earliest) is used for both encoding and decoding.", "quantifier": "all nested struct shapes", "why_tests_cant": "All nestings and orders of declaration.", "anchors": ["unjson/codec.go:structCodec.merge", "unjson/codec.go:cmpIndex", "unjson/codec.go:structCodec.Get"]}
{"id": "C47", "title": "All users of a Cache see one codec per type", "statement": "For any number of goroutines and any interleaving, all successful Cache.Decoder (Encoder) calls for one type return the same instance, later calls return it too, and no call blocks forever on the lock.", "quantifier": "all schedules of any number of callers", "why_tests_cant": "Interleavings.", "anchors": ["unjson/cache.go:Cache.Decoder", "unjson/cache.go:Cache.Encoder"]}
{"id": "C48", "title": "Pooled documents are blank and exclusively owned", "statement": "A document obtained from a Pool has no nodes, none of the Nodes from its earlier use is valid, and it is not owned by anybody else at the same time, for every schedule of Get, use and Put.", "quantifier": "all schedules of pool users", "why_tests_cant": "Histories and interleavings.", "anchors": ["document.go:Pool.Get", "document.go:Pool.Put", "document.go:Document.Close"]}
{"id": "C49", "title": "Line streams carry values one per line", "statement": "LineEncoder writes each value's JSON followed by one newline and LineDecoder reading that stream returns the values in order, whatever the size of the reader's buffer.", "quantifier": "all sequences of values, all buffer sizes", "why_tests_cant": "All lengths of lines relative to the buffer.", "anchors": ["unjson/stream.go:LineDecoder.Decode", "unjson/stream.go:LineEncoder.Encode"]}
{"id": "C50", "title": "Recycled storage is never shared", "statement": "Under any history of parses (successful or failed), resets, constructions, copies and mutations, the value slices of distinct nodes never overlap in memory, so in-place reuse of capacity by the parser and the mutators behaves as if every node had its own list.", "quantifier": "all histories, all slice growth policies", "why_tests_cant": "Aliasing corruption needs a specific history and capacity.", "anchors": ["parser.go:appendV", "parser.go:parser.node", "document.go:Document.ncopy", "document.go:Document.grow", "document.go:node.reset", "node.go:Node.Append"]}
{"id": "C51", "title": "UnmarshalJSON/UnmarshalText wrappers receive the node's text", "statement": "WrapUnmarshalJSON passes exactly the JSON text of the node; WrapUnmarshalText passes the string's unescaped text and rejects non-strings with a type error.", "quantifier": "all nodes", "why_tests_cant": "All trees and strings.", "anchors": ["node.go:Node.WrapUnmarshalJSON", "node.go:Node.WrapUnmarshalText"]}
{"id": "C52", "title": "Floats written by SetFloat are read back by ToFloat", "statement": "For every finite float64 f, after n.SetFloat(f) on a live node n.ToFloat() returns exactly f and ok, and the text stored is an RFC 8259 number whose nearest float64 is f.", "quantifier": "all finite float64 values, all live nodes in all documents", "why_tests_cant": "There are 2^64 float64 values; writing uses strconv's shortest text while reading uses its own decimal arithmetic, and the two disagree only on particular digit and exponent combinations.", "anchors": ["node.go:Node.SetFloat", "node.go:Node.ToFloat", "numjson/format.go:AppendFloat", "numjson/numjson.go:ParseFloat"]}
{"id": "C53", "title": "PrintJSON writes exactly what AppendJSON gives", "statement": "Node.PrintJSON writes the node's JSON text to the writer in one call, and writes nothing when AppendJSON fails.", "quantifier": "all documents and all nodes, live or dead", "why_tests_cant": "Trees are unbounded; a test sees only a few of them and not every way AppendJSON can fail.", "anchors": ["node.go:PrintJSON", "node.go:Node.PrintJSON"]}
{"id": "C54", "title": "Codecs are built for exactly the supported types", "statement": "Building the decoder or encoder of any type, recursive types included, terminates without panic, and it fails exactly when the type contains a part (a channel, a function, a map whose keys cannot be written, ...) for which no codec exists.", "quantifier": "all families of mutually recursive types with any methods, all options", "why_tests_cant": "Types can refer to each other in any shape; a test covers a few of them and cannot show that the walk over a recursive type always ends.", "anchors": ["unjson/decode.go:newDecoder", "unjson/encode.go:newEncoder", "unjson/codec.go:structCodec.merge", "unjson/cache.go:cache.decoder", "unjson/cache.go:cache.encoder"]}
{"id": "C55", "title": "Marshal and unmarshal methods are called wherever their type occurs", "statement": "A value whose type implements njson.Appender, json.Marshaler or encoding.TextMarshaler (in this order of preference) is encoded by that method with its result put in the output as it is (text in quotes), whether it is given to Marshal or is a field, an element or the value in an interface; the same for njson.Unmarshaler, json.Unmarshaler and encoding.TextUnmarshaler, which get the node, its JSON text or its string.", "quantifier": "all families of types with any methods, all options, all places of the type in another, all values and documents", "why_tests_cant": "Whether a method is called depends on the order in which a cache shared by encoders and decoders was filled, that is on the whole type around the value; a test shows one type.", "anchors": ["unjson/cache.go:cache.encoder", "unjson/cache.go:cache.decoder", "unjson/encode.go:newEncoder", "unjson/encode.go:newTypeEncoder", "unjson/decode.go:newDecoder", "unjson/decode.go:NewTypeDecoder", "unjson/codec.go:newStructCodec"]}
{"id": "C56", "title": "Encoder objects write JSON for the types they were made for and reject all others", "statement": "NewTypeEncoder returns an encoder for exactly the supported types, with any options; its Encode appends one JSON text for a value of the type or a pointer to one, the same for both, calls the type's method if it has one, and returns an error and the buffer unchanged for a value of any other type. AppendJSON is this with the default options.", "quantifier": "all families of types with any methods, all options (tag, OmitEmpty, OmitMethod, AllowNaN, AllowInf), all values and buffers", "why_tests_cant": "Encoders are built from the type and the options together; a test fixes one of each.", "anchors": ["unjson/encode.go:NewTypeEncoder", "unjson/encode.go:newTypeEncoder", "unjson/encode.go:typeEncoder.Encode", "unjson/options.go:Options.normalize"]}
{"id": "C57", "title": "Decoder objects store the value in targets of their type and reject all others", "statement": "NewTypeDecoder returns a decoder for interface{} and for pointers to supported types, with any tag; its Decode stores the node's value in the target under the keys of that tag, reports an error exactly when the value does not fit, and leaves a target of another type as it is with an error. UnmarshalFromNode is this with the tag json.", "quantifier": "all families of types with any methods, all tags, all targets, all documents", "why_tests_cant": "The keys of every nested struct depend on the tag given to the decoder; a test fixes types, tag and document.", "anchors": ["unjson/decode.go:NewTypeDecoder", "unjson/decode.go:typeDecoder.Decode", "unjson/decode.go:interfaceDecoder.Decode", "unjson/decode.go:njsonDecoder.Decode", "unjson/decode.go:jsonDecoder.Decode", "unjson/decode.go:textDecoder.Decode"]}
{"id": "C58", "title": "What an encoder object writes, the decoder object with the same tag reads", "statement": "For every option set, parsing what Encode appended for a value and giving it to the decoder made for the same type and tag, with a zero target, stores an equal value.", "quantifier": "all families of types, all options (with OmitEmpty, fields are left out of the text), all values, all documents parsed into", "why_tests_cant": "Field selection, omission and key lookup are computed by two different objects from the same tags; that they agree for all types needs an argument over both.", "anchors": ["unjson/encode.go:typeEncoder.Encode", "unjson/decode.go:typeDecoder.Decode", "unjson/codec.go:structCodec.merge", "unjson/omit.go:newOmiter"]}
{"id": "C59", "title": "The values written by a LineEncoder are those read by a LineDecoder", "statement": "Writing any list of values with LineEncoder.Encode and reading the stream with LineDecoder.Decode into zero targets stores equal values in the same order and then gives io.EOF. A call of Decode takes exactly one line even when it fails, and a call of Encode that fails writes nothing.", "quantifier": "all families of types, all options, all lists of values, all sizes of the reader's buffer, all documents the decoder holds", "why_tests_cant": "A stream stays in step only if no text ever contains a newline and every call takes one whole line, for all values, buffer sizes and errors; tests try a few streams.", "anchors": ["unjson/stream.go:LineDecoder.Decode", "unjson/stream.go:LineEncoder.Encode"]}
{"id": "C60", "title": "The code generator makes code that compiles for exactly these types, the same in every run", "statement": "For every type the generator returns, with an error exactly when the type is made of one it cannot write (read), and the method it makes compiles exactly when every type it is made of meets the listed conditions. If no two fields of a struct have the same tag, the AppendJSON method does not depend on the order in which the fields are walked.", "quantifier": "all families of types, all options, all orders of the fields", "why_tests_cant": "Generated code is compiled only for the types of a test; that the generator ends, reports what it cannot do and makes correct Go is a statement about all types, and the order of a Go map varies from run to run.", "anchors": ["internal/generator/append.go:Generator.TypeAppender", "internal/generator/unmarshal.go:Generator.TypeUnmarshaler", "internal/generator/unmarshal.go:CanUnmarshal", "internal/generator/append.go:Generator.StructAppender"]}
{"id": "C61", "title": "A generated AppendJSON appends one JSON text of the value", "statement": "For every type the generator makes a method for and every value of it, the method appends exactly one RFC 8259 text, of the tree given by the fields, tags and omitempty conditions, or returns the error of a method of a part; a nil receiver writes null.", "quantifier": "all families of types, all options, all values, all buffers, all methods of user types", "why_tests_cant": "Commas, omitted fields, nil pointers on the way to promoted fields and nested methods combine without bound; a golden test fixes a few values of a few types.", "anchors": ["internal/generator/append.go:Generator.StructAppender", "internal/generator/append.go:Generator.TypeAppender", "internal/generator/append.go:Generator.EnsureReversePath", "internal/generator/append.go:Generator.TypeOmiter"]}
{"id": "C62", "title": "A generated UnmarshalNodeJSON stores the tree of the node or returns an error that names the mismatch", "statement": "For every type the generator makes a method for, every target and every node, the method returns without a panic; the target stays a value of the type and, if there is no error, is the old target with the tree stored in it; an error is that of a method or names a part of the tree of the wrong JSON type.", "quantifier": "all families of types, all options, all targets, all documents and nodes", "why_tests_cant": "The result depends on spare capacity, nil pointers and old contents of the target and on every shape of document.", "anchors": ["internal/generator/unmarshal.go:Generator.StructUnmarshaler", "internal/generator/unmarshal.go:Generator.SliceUnmarshaler", "internal/generator/unmarshal.go:Generator.MapUnmarshaler", "internal/generator/unmarshal.go:Generator.EnsurePath"]}
{"id": "C63", "title": "The generated methods undo each other", "statement": "For every struct type and value for which both methods are made and compile, what AppendJSON writes is a single document for the parser, and UnmarshalNodeJSON reads it into a blank value without an error and gives back the value: equal parts, with the fields that were left out blank.", "quantifier": "all families of types, all options, all orders in which the generator walks the fields, all values of the type", "why_tests_cant": "The two methods are made by separate walks over the type whose rules for choosing fields differ; agreement must hold for every nesting of structs, pointers, slices and embedded fields and every value.", "anchors": ["internal/generator/append.go:Generator.StructAppender", "internal/generator/unmarshal.go:Generator.StructUnmarshaler", "internal/generator/unmarshal.go:Generator.EnsurePath", "internal/generator/append.go:Generator.TypeAppender"]}
{"id": "C64", "title": "The text of an error is one printable line and tells errors apart", "statement": "Whatever the input, the text of a parse error or type error is one line of UTF-8 without control characters; two errors of Document.Parse with the same text are equal in position, type, found and wanted token; two type errors with the same text are equal.", "quantifier": "all inputs, all errors, all sets of types", "why_tests_cant": "The text quotes bytes of the input, which may be any bytes: quotes, line ends, text that looks like the rest of a message, and bytes that are not UTF-8.", "anchors": ["error.go:ParseError.Error", "error.go:UnexpectedEOF.Error", "error.go:typeError.Error", "types.go:Type.String", "types.go:Type.Types"]}
{"id": "C65", "title": "The generated file: name, header, package clause and imports", "statement": "The file for a package is a Go file, a test file exactly if the package is a test package, and different packages get different files. Whatever packages the code needs and in whatever order the map of imports is walked, the file is one line that marks it as generated, the package clause, exactly one import for every package other than its own, binding the name the code uses, and the code; the generator recognises the file; the imports bind different names.", "quantifier": "all package names and paths, all lists of imports, all orders of iteration over the map, all times", "why_tests_cant": "The order of a Go map differs from run to run, and the paths of packages of other people end in anything: versions, slashes, names that are not the name of the package.", "anchors": ["internal/generator/generator.go:Filename", "internal/generator/generator.go:Import", "internal/generator/generator.go:Header", "internal/generator/generator.go:DumpTo", "internal/generator/generator.go:IsGeneratedByNJSON"]}
{"id": "C66", "title": "The command writes the methods that were asked for and keeps the file when it fails", "statement": "A run of the command that ends well has written for exactly the struct types its argument stands for the methods the flags ask for, each once; the file is changed only with -w and without -d; a run that fails changes no file; methods are written for every type that is given; the receiver of a method is a name its body can use.", "quantifier": "all flags, arguments, packages, generators of methods, files and failures of formatting and of creating the file", "why_tests_cant": "There are no tests of the command; failures between creating the file and formatting the code need code that cannot be formatted.", "anchors": ["cmd/njson/njson.go:main", "internal/generator/append.go:Appender", "internal/generator/unmarshal.go:Unmarshaler", "internal/generator/generator.go:Reset"]}
{"id": "C67", "title": "The test cases of njsontest pass exactly when the methods do what the options say", "statement": "A test of AppendJSON reports nothing exactly when the data can be had and the method returns the error asked for or, when none is asked for, no error and those data; a test of Unmarshal reports nothing exactly when the data can be had and begin with a JSON value and the method given that value returns the error asked for or, when none is asked for, no error and leaves a value deeply equal to that of the test; the last option of each kind decides; a method that is missing or has another type is reported; a run can be repeated; the data must be one JSON text.", "quantifier": "all types, values, methods, memories, options in any number and order, sources of data and errors", "why_tests_cant": "njsontest is what the other tests are written with, and it is only used with a few options on types whose methods are right; a test helper that passes too easily is not seen by passing tests.", "anchors": ["njsontest/t.go:newT", "njsontest/t.go:AppendJSON", "njsontest/t.go:Unmarshal", "njsontest/t.go:checkError", "njsontest/t.go:checkMethod", "njsontest/option.go:Error", "njsontest/option.go:JSON", "njsontest/option.go:Value", "njsontest/option.go:Method"]}
{"id": "C68", "title": "Name and options of a field are those its struct tag says", "statement": "Looking up a key in a struct tag gives the value of the first pair with that key, read as a Go string, all before it being pairs; the name of a field is the part of that value before the first comma, or the field's name if it is empty, and its hints are the other parts, each of which counts only if it is a known word; without the key the field has its own name; a tag - leaves the field out in the generator.", "quantifier": "all struct tags (any bytes), keys, field names and options", "why_tests_cant": "Tests have a handful of tags, all conventional and ASCII.", "anchors": ["unjson/options.go:parseField", "unjson/options.go:parseTag", "unjson/options.go:parseHints", "internal/generator/options.go:ParseFieldTag"]}
{"id": "C69", "title": "Marshal writes the tree of the value", "statement": "What Marshal and AppendJSON write for a value is a JSON text of one tree determined by the value and its type: booleans, numbers, escaped strings, null for nil pointers, maps and interfaces, arrays for slices and arrays element by element, objects for maps and for structs, the latter with the members and order of the fields that take part, recursively through pointers and interfaces, and the output of marshaling methods where a type has them.", "quantifier": "all types (recursive ones too), all values of them, all prefixes already in the buffer", "why_tests_cant": "Tests compare the output for a few values of a few types; C41 says only that the output is valid JSON, which a program that writes null for everything meets.", "anchors": ["unjson/encode.go:newEncoder", "unjson/encode.go:encode", "unjson/codec.go:encode", "unjson/codec.go:merge", "unjson/unjson.go:AppendJSON", "unjson/unjson.go:Marshal"]}
{"id": "C70", "title": "Constructors add one new node with the value asked for", "statement": "Null, False, True, Object, Array, TextRaw, Text, TextHTML and, for a finite float, Number add one node to the end of the document and return it; it denotes the value asked for (the text escaped, reading back as itself; the number rounding to the float), is no part of anything, can be adopted by Set, Append and Replace unless it is the root, and all other trees stay as they are. The first node made is the root; AppendJSON of a document is that of its root and an error for an empty document.", "quantifier": "all worlds of documents, all documents in them, all texts (any bytes) and floats", "why_tests_cant": "Tests make a few nodes in fresh documents and look at them only; that no other node changes and that the new one is free is a statement about all documents.", "anchors": ["document.go:Null", "document.go:False", "document.go:True", "document.go:TextRaw", "document.go:Text", "document.go:TextHTML", "document.go:Object", "document.go:Array", "document.go:Number", "document.go:Root", "document.go:AppendJSON"]}
{"id": "C71", "title": "The flags of the command select and name the fields", "statement": "With the flags of njson a field takes part exactly if it is not blank, its name matches -match, it is exported under -only-exported, has the key -k (json if empty) in its tag under -only-tagged, and has no - for its name there; its name is that of the tag, else its own in the case of -case; -omitempty adds omitempty. The flags are refused only for a pattern that is no regular expression. Each option of the generator sets what it is for and nothing else; an empty name of a method is the default one. The package is the argument, else the last element of the path up to its last dot.", "quantifier": "all flags, fields, tags, patterns, paths and arguments; any functions for the cases and for matching", "why_tests_cant": "There are no tests of the command; the generator is tested with one set of options.", "anchors": ["cmd/njson/njson.go:main", "internal/generator/options.go:TransformFieldCase", "internal/generator/options.go:MatchFieldName", "internal/generator/options.go:parseField", "internal/generator/options.go:TagKey", "internal/generator/options.go:OmitMethod", "internal/generator/options.go:AppendMethod", "internal/generator/options.go:UnmarshalMethod"]}
{"id": "C72", "title": "The generated AppendJSON and Marshal write the same value", "statement": "For a type for which the generator makes an AppendJSON that compiles, the text it writes for a value and the text that unjson's Marshal writes for it are texts of the same JSON value, up to the order of the members of objects (the generator sorts them by name, Marshal keeps the order of the fields).", "quantifier": "all types, tags, struct layouts and values without methods of their own, maps, nil pointers in fields without omitempty, and floats whose 32-bit and 64-bit texts differ; any function that formats floats correctly", "why_tests_cant": "Tests of the generator never compare its output with unjson's, and the two walk types by unrelated code; the values on which they differ are rare ones (a float64 that is no float32, a nil pointer without omitempty).", "anchors": ["internal/generator/append.go:Generator.StructAppender", "internal/generator/append.go:Generator.TypeAppender", "unjson/encode.go:newEncoder", "unjson/codec.go:merge", "unjson/unjson.go:AppendJSON"]}
{"id": "C73", "title": "The table generator writes the tables asked for", "statement": "The command internal/bytemaper writes a Go file with one constant and one function per argument, in the order of names: the constant's string literal reads (by the Go language specification) as the 256 entries of the table, which for NAME:SET are 1 for the bytes of SET and 0 for others, and for the thirteen names with a meaning what that name says; of arguments with the same name the last counts. It fails only if the file cannot be created or an argument has no name.", "quantifier": "all argument lists, flags, package names and prefixes; any functions of package unicode", "why_tests_cant": "The command has no tests; a set of one byte silently gives a table of zeros, which a test of a larger set does not show.", "anchors": ["internal/bytemaper/bytemaper.go:main", "internal/bytemaper/bytemaper.go:trIs", "internal/bytemaper/bytemaper.go:trTo", "internal/bytemaper/bytemaper.go:toISO3166", "internal/bytemaper/bytemaper.go:toISO639", "internal/bytemaper/bytemaper.go:nameOrDefault"]}
{"id": "C74", "title": "The generated UnmarshalNodeJSON stores what Unmarshal stores", "statement": "For a struct (or other) type that both handle by kinds and with the same fields, a generated UnmarshalNodeJSON that returns no error stores in a zero value exactly the value that Unmarshal stores, if the JSON has the types that Unmarshal takes; and if it has no null and only numbers that numjson reads, neither returns an error.", "quantifier": "all type environments without maps, all documents without repeated keys and empty arrays, all zero targets", "why_tests_cant": "The generated code is tested on a few fixed structs and never compared with the reflective decoder; the differences (empty arrays, repeated keys, null, numbers for strings) only appear on particular documents.", "anchors": ["internal/generator/unmarshal.go:Generator.StructUnmarshaler", "unjson/unjson.go:UnmarshalFromNode"]}
{"id": "C75", "title": "The cost of a parsed text is linear", "statement": "A successful Parse adds exactly one node per value of the text, all of them below the node returned; there are at most half as many (rounded up) as bytes, their raw texts and keys together are no longer than the text, and AppendJSON of the node writes no more bytes than were parsed. Whether it succeeds or not, Parse allocates at most four cells for values per byte, and for nodes at most four cells per byte and node already there; none for nodes if the array has room. Nesting is at most half the length, and is not limited otherwise.", "quantifier": "all worlds, documents and texts; all memories with any spare capacity", "why_tests_cant": "Tests look at the result for a few texts; a bound on the memory for every text, including rejected ones, needs an argument about all of them.", "anchors": ["parser.go:Document.Parse", "parser.go:parser.node", "parser.go:appendV", "parser.go:parser.parseArray", "parser.go:parser.parseObject"]}
{"id": "C76", "title": "Parsing again after Reset allocates nothing", "statement": "After a document has been reset and has parsed a text, resetting it and parsing, any number of times, texts whose values have no more values below them than the ones at their places in the first (for example the same text) makes no new array of nodes or values. It does not hold for texts that end early.", "quantifier": "all call histories, all runtime growth policies, all texts and sequences of texts that begin with such values", "why_tests_cant": "Benchmarks report allocations for fixed texts; the claim depends on every values slice kept in the recycled nodes having the capacity that the next text needs.", "anchors": ["parser.go:Document.Parse", "parser.go:parser.parser", "parser.go:appendV", "document.go:Document.Reset"]}
{"id": "C77", "title": "Marshal writes what json.Marshal writes", "statement": "For a value of a type without methods, the text that Marshal writes says (up to the spelling of strings and numbers and the order of the members of maps) what json.Marshal of encoding/json writes: the same fields of structs, embedded ones included, the same values left out. It does not hold for nil slices, slices of bytes, float64 values, integer keys, nil pointers, and tags or embedded structs that the two packages read differently.", "quantifier": "all types without methods and all values of them that are portable", "why_tests_cant": "The comment promises a drop-in replacement; tests compare a few values, whereas which fields are written depends on every combination of tags, embedding and name clashes in a type.", "anchors": ["unjson/unjson.go:Marshal", "unjson/unjson.go:AppendJSON", "unjson/encode.go:newEncoder", "unjson/options.go", "unjson/codec.go"]}
{"id": "C78", "title": "Unmarshal stores what json.Unmarshal stores", "statement": "For a pointer to a zero value of a type without methods and a JSON text, Unmarshal stores the value that json.Unmarshal of encoding/json stores (up to the order of the keys of maps and the room of slices) and returns no error: the same fields of structs, embedded ones included, the same elements, the same values in interfaces. It does not hold for keys that differ in case or have escapes, null for values that are not zero, numbers that numjson does not read exactly or that are out of range, strings that end in a backslash, slices of bytes, nil maps, and text after the value.", "quantifier": "all types without methods, all JSON texts that json.Unmarshal stores in them and that are well", "why_tests_cant": "Tests decode a few texts into a few structs; which field gets a member depends on every combination of tags, embedding, name clashes and spellings of keys, and the numbers that are read otherwise are rare.", "anchors": ["unjson/unjson.go:Unmarshal", "unjson/unjson.go:UnmarshalFromNode", "unjson/decode.go:newDecoder", "unjson/codec.go", "unjson/options.go"]}
{"id": "C79", "title": "A parse error is where the text stops being completable and names what would do", "statement": "When Parse fails with a ParseError, the text before its position can be completed to one that Parse accepts, beginning with whatever the error says it wanted (each of the bytes, the literal, or any value); the text up to the end of what the error says it got cannot, whatever follows. Type is that of the value that was being read and goes with what was wanted. The position is that of the first wrong byte, but for misspelt literals, where it is that of the first byte of the literal. When Parse fails because the text ends too early, the type in the error is that of the innermost value that has begun and not ended, and every text that ends so gives that error. What is said to be wanted is all that would do, but for spaces and the rest of a number.", "quantifier": "all texts, all documents", "why_tests_cant": "Tests look at a few wrong texts; that a prefix can be completed, and that a wrong one cannot, is about all continuations, at any nesting.", "anchors": ["parser.go:parseValue", "parser.go:parseArray", "parser.go:parseObject", "parser.go:abort", "error.go:ParseError"]}
