# Formal model of alxarch/njson in Rocq (Coq 8.16.1)

The English statements are in `properties.jsonl`, the status and the theorem names of each in
`MANIFEST.json`.  This file says what is modelled and how, what is trusted, and for each property
how it is stated and proved and what is missing.

Build: `cd rocq && coq_makefile -f _CoqProject -o Makefile && make -j4` (about 8 minutes).

## Trusted base

* Coq 8.16.1's kernel (`vm_compute` included).  No flag that switches off a check is used, there are
  no axioms, parameters, functors, plugins or admitted proofs.
* `Print Assumptions` stands under every theorem of the `Props*.v` files and prints
  `Closed under the global context` for **every one of them** (415 of 415): no axiom at all, the standard library's
  included, is used by any property theorem.
* `coqchk -o` lists seven constants of the standard library for the context as a whole,
  `Coq.ssr.ssrunder.Under_rel.{Over_rel,over_rel,over_rel_done,Under_rel,Under_relE,Under_rel_from_rel,under_rel_done}`
  (of a sealed module that loading `Lia` brings in); no theorem depends on them.
* Libraries: only Coq's standard library (`NArith`, `ZArith`, `QArith`, `Lia`, `Lqa`, `Permutation`,
  `Sorted`, `FinFun`).
* The reading of `/repo` recorded in the model files: every definition there cites the file and lines
  it stands for.  `Tables.v` is generated from `/repo` by `tools/gen_tables.py`.
* What the Go language and library do, as listed under "Modelled by documented behaviour".

## What is modelled

| code | model |
|---|---|
| `types.go` | `Types.v` |
| `parser.go`, `bytemaps.go` (and `strjson`, `numjson` tables) | `Parser.v`, `Tables.v` |
| `document.go:12-364` (documents, nodes, constructors, copying, `AppendJSON`) | `Doc.v`, `DocStr.v` (text), `Num.v` (numbers), `Iface.v` (`ToInterface`) |
| `document.go:366-412` (`Pool`) | `Pool.v` |
| `node.go` (accessors, `Lookup`, iterators, mutators, setters) | `Doc.v`, `DocStr.v`, `Num.v`; callbacks in `Wrap.v` |
| `parser.go`, `document.go`, `node.go` once more, with backing arrays, spare capacity and their reuse | `Mem.v` |
| `strjson/escape.go`, `strjson/unescape.go` | `Strjson.v` |
| `numjson/numjson.go`, `numjson/format.go` | `Num.v` |
| `internal/bytemaper/bytemaper.go` (functions and loop behind the tables; the command) | `Bytemaper.v`; `MapCmd.v` |
| `unjson/options.go` | `Options.v` |
| `unjson/cache.go:9-66` (`Cache`, goroutines) | `Cache.v` |
| `unjson/cache.go:68-124`, `codec.go`, `omit.go`, `encode.go`, `decode.go`, `unjson.go` | `Codec.v` |
| `unjson/options.go:37-45`, `encode.go:24-97`, `decode.go:33-124, 374-382, 486-491` (encoder and decoder objects, any options) | `Coder.v` |
| `unjson/stream.go` | `Stream.v` (lines and nodes), `Lines.v` (with the values encoded and decoded) |
| `internal/generator/append.go`, `unmarshal.go`, `options.go:16-146` (the generator, which of its output compiles, and what the generated methods do) | `Gen.v` |
| `internal/generator/generator.go:24-222` (file names, imports, header), `cmd/njson/njson.go` (the command) | `GenFile.v` |
| `internal/generator/options.go:207-227` (`ParseFieldTag`); `reflect.StructTag.Lookup` and `strconv.Unquote` for it and for `unjson/options.go` | `Tag.v` |
| `internal/generator/options.go:16-204` (options), `cmd/njson/njson.go:18-74` (flags, package name) | `CmdOpts.v` |
| `njsontest/t.go`, `njsontest/option.go` (test cases) | `NjTest.v` |
| `error.go`, `types.go:48-71` (texts of errors, names of types; `fmt` and `strconv` quoting after their documentation) | `ErrText.v` |
| histories of calls of the document API | `Api.v` |

**Not modelled:** reading and formatting Go source (`go/parser`, `go/types`, `go/format`, `internal/meta`; `GenFile.v` takes
their results as inputs), logging and exit codes of the commands; Go's stack and heap limits, garbage collection and
timing.

### Modelled by documented behaviour (inputs to the theorems or definitions of their own)

* `unicode/utf8`, `unicode/utf16`: `Utf8.v`, proved equal to RFC 3629 in `Utf8Proofs.v`.
* float64/float32 arithmetic: `Float.v`, IEEE 754 round-to-nearest-even over rationals, proved
  correctly rounded in `FloatProofs.v`/`FloatOps.v`.  NaN payloads are not modelled.  Products and
  sums are rounded separately: Go may fuse them on other machines than amd64.
* `math.Pow10`, `math.Trunc`, `strconv.ParseFloat`, `FormatInt`, `FormatUint`: by documentation.
* `strconv.AppendFloat` is a parameter `ftoa`; the theorems hold for every one meeting `ftoa_spec`
  (FmtSpec.v): the shortest decimal text that reads back.  `exact_ftoa` shows that one exists.
* `reflect`: types are entries of a table, values are trees (`Codec.v`): no aliasing through pointers
  and no cyclic values.  `StructTag.Lookup` is an input.  Methods of user types are arbitrary functions,
  which may panic or give an error but do not change the document.  A map is a list of pairs; the
  order in which it is walked is an arbitrary permutation.
* `sync.RWMutex`, `sync.Pool`: transition systems after their documentation (`Cache.v`, `Pool.v`).
  Building a codec is one step there.
* `bufio.Reader.ReadLine`: after its documentation, any buffer size, over a reader that delivers all
  bytes and then `io.EOF`.
* `github.com/alxarch/meta` (not in the repository): what `Gen.v` takes of it is listed in its header; the fields of a
  struct (`NewFields`) are an input.  Go's compiler: `compilesAppender` and `compilesUnmarshaler` say which of the
  generated methods it accepts, after the language specification; string literals are in `GoLit.v`.  Method names are the
  default ones.
* `append`: growth is an arbitrary policy (`Mem.v`); capacities are what is left of the array.  Arrays
  are never freed.

### Representation

* `string` and `[]byte` are `list byte`.  A suffix `s[pos:]` is carried with the position.
* A call returns `Ok`, `Panic` or `Diverge`.  Loops and recursions that are not structural take fuel;
  running out of it is `Diverge`, which the theorems exclude or, for cyclic documents and types,
  prove to be real.
* A world is a list of documents, a document a list of nodes with a revision, a `Node` is (id, rev,
  document or nil).  Node arguments of calls are arbitrary: forged ids, stale revisions, nil.
* Integers that can wrap (`rev`, digit accumulators, `Lookup` steps) wrap explicitly.

## Specifications

They are separate files that do not use the model's operations: `JsonSpec.v` (trees, RFC 8259 grammar,
the lenient grammar, printing), `StrSpec.v` (UTF-8, meaning of string contents), `FloatSpec.v`,
`NumSpec.v`, `FmtSpec.v` (rounding, decimal texts), `DocSpec.v` (`tree_of`: the tree a node denotes,
reachability), `HistSpec.v`, `ApiSpec.v` (histories), `OptSpec.v` (tags), `StreamSpec.v` (lines),
`PoolSpec.v`, `CacheSpec.v`, `MemSpec.v` (storage), `IfaceSpec.v`, `CodecSpec.v`, `DecodeSpec.v`,
`RoundSpec.v`, `MethodSpec.v`, `CoderSpec.v`, `LinesSpec.v` (codecs), `GenSpec.v`, `GoLitSpec.v` (generated code), `ErrSpec.v`
(texts of errors), `ErrPosSpec.v` (positions of errors), `GenFileSpec.v` (generated files), `NjTestSpec.v`
(test cases), `TagSpec.v` (texts of struct tags).  `Props*.v` hold the theorems only, each closed by `exact`, with
`Print Assumptions`; each property has at least one concrete `Example` (some have one per group of
theorems) that meets the hypotheses.

A theorem named `_refuted` shows that the full statement is false of the code; the `_partial` theorems
beside it say what holds instead and their comments what is missing.  `seeded/LOG.jsonl` records edits
to the model that must break theorems, and which did.

## Properties

### Parsing and printing (`PropsParser.v`, `PropsApi.v`)
* **C01** partial. `C01_partial` for every RFC text, whitespace and tail.  False for strings that end in an
  escaped backslash and have no quote inside (parser.go:141-147 takes the quote for an escaped one):
  `C01_refuted` (rejected), `C01_wrong_tree_refuted` (another tree).
* **C02** proved. Parse succeeds iff the input splits into whitespace, lenient value, tail; unique; by
  induction on the input, soundness and completeness separately (`ParserProofs.v`).  RFC 8259's grammar is
  unambiguous too (RfcOne.v), so `rfc_value v w` says what w denotes.
* **C03** proved. Fuel 3*len+1 always suffices, and bounds the depth.  **C04**, **C05** proved, by induction
  over the parser's calls (`ParserErr.v`).
* **C06** partial: false for a broken literal at the end (`tr}`); exact otherwise.
* **C07** proved at value level; **C50** adds memory.
* **C08**, **C09** proved through `print`, `tree_AppendJSON` and C02.
* **C10** partial: `C10_refuted` (text ending in a backslash), `C10_key_refuted` (keys are not escaped).
  `C10_rfc` for all texts.  **C39** proved, over all masks.

### The document API (`PropsDoc.v`)
Histories are lists of calls with arbitrary arguments; invariants (well-formed, closed, acyclic, unshared)
are preserved step by step (`InvProofs.v`, `HistProofs.v`).
* **C11** proved (fewer than 2^64 resets).  **C13**, **C20**, **C23** proved.
* **C12**, **C15**, **C17** partial: storing an ancestor of the receiver makes a cycle (`_refuted`); proved for
  all other arguments and histories.  **C18** partial: a copied root keeps its root flag and can be adopted twice.
* **C14** partial: only the first of two equal keys is deleted.  **C16** partial: `Slice(i,j)` does nothing
  when i = j or j = len.  **C19** partial: `Strip` changes descendants.  **C21** partial: `Strip` skips
  objects in arrays and second occurrences; its exact effect is proved.  **C22** partial: empty steps and steps
  from 2^63 on.

### Strings (`PropsStr.v`)
* **C26**-**C29** proved.  **C30** partial: an unpaired surrogate swallows a following `\u` escape.  **C31** partial:
  `\u` with letters g-z.  **C32** partial: `bytemapFromHex` gives g-z the values 16-35; all other tables are right on
  all 256 bytes and are what the generator's functions give (`C32_generated`).

### Numbers, setters, generic values (`PropsNum.v`)
* **C24** partial: keys of maps are not unescaped.  **C25** partial as C37.  **C33** partial: exponents of 20 digits
  wrap, repeated signs are taken.  **C34** proved.  **C35** partial: relative error 2^-49 (and one
  subnormal unit) for every exponent, infinity beyond 2^1026, when the digits fit 64 bits; false when they do not and
  for some fractions of more than 307 digits (a normal number is read as zero).
  `C35_wraps`: with a fraction, digits count modulo 2^64.  **C36**, **C37** partial: integers go through
  float64; exact characterisation; a node that is gone gives 0 and not ok (`C36_dead`); 300000e-5 is not taken for an integer, 1.5e3 and 7.000 are.  **C38** partial: NaN, infinities and float32 overflow are no
  numbers.  **C52** partial: 0.3 does not read back; error bound and exact cases proved.

### Callbacks, tags, streams, sharing (`PropsWrap.v`, `PropsTag.v`, `PropsStream.v`, `PropsPool.v`, `PropsCache.v`, `PropsMem.v`)
* **C51** partial: `WrapUnmarshalText` passes the escapes.  **C53** proved.
* **C45** partial: a tag whose unquoted value is longer than the tag.  **C49** partial: JSON texts with a newline.
* **C47** proved for every number of goroutines and every interleaving of the single accesses: one instance per
  type, no data race, progress.  **C48** partial: closing a document twice gives it to two users; after 2^64 resets
  a stale node is live again (`C48_wrap_refuted`).
* **C50** proved: a simulation between `Mem.v` and the list model for all histories and growth policies; the
  iterator shares the node's array (`C50_iterator_refuted`).

### unjson (`PropsCodec.v`, `PropsDecode.v`, `PropsRound.v`, `PropsMethod.v`, `PropsCoder.v`, `PropsLines.v`, `PropsStd.v`, `PropsStdU.v`,
`PropsTree.v`)
Codecs are objects in a heap built with the cache of cache.go:68-124 (`newCodec`); `CodecBuild.v` proves the
invariant `sound`: each object is for the type and hints it is used for, except that a struct codec may stand
in for one with a method (C55).
* **C54** partial: building returns and fails exactly when a needed part has no codec; a struct that embeds
  a pointer to itself is never finished (`C54_refuted`, `C54_cyclic`).
* **C46** partial: a deeper field declared first wins for decoding and both are written; otherwise exact.  `C46_exact`
  says for all keys which fields are kept, and in which order.
* **C44** partial: which members are written, order, keys; arrays and structs count as empty when their parts are.
* **C41** partial: valid JSON for all types and values but floats beyond float32, text methods that return quotes,
  raw fields, keys with quotes, and some methods with pointer receivers (panic).
* **C43** partial: never panics and stores the members, for all targets but nil maps, maps with a defined key type,
  defined interface types, nil targets, looping pointer types, nil embedded pointers.  **C42** partial: errors for
  mismatches except in slices (cut short), arrays, integers out of range, text after the value.  `C42_first`: a type
  without a decoder is reported before the text is read, otherwise the error of the parser comes first.
  Both go through `un`, the decoder on trees, with `un_bridge` (`DecodeTree.v`).
* **C40** partial: Unmarshal after Marshal for all values of types encoded and decoded by kind, except those listed
  in the refutations.
* **C55** partial: methods are called in every place, except for a struct type with methods for one direction only in a
  place without hints.
* **C56** partial: encoder objects with any options.  `completed` says which options are used; only the tag and
  OmitEmpty reach the codecs that are built (`newCodec_ext`), the rest is read while encoding.  `_refuted`: nil
  pointers, methods and Omit methods on the pointer only, AllowNaN.  `C56_default` ties AppendJSON to them.
* **C57** partial: decoder objects with any tag: the proofs of C42 and C43, which hold for all options.  `_refuted`: a
  decoder made for a type with a method takes other types, and the one for interface{} changes its target on errors
  (`left_over` says what it leaves).  `C57_nil`: a nil pointer makes Decode panic, unless the value is null.
* **C58** partial: round trip with any options.  The codecs of encoder and decoder are built with different options
  (OmitEmpty), so what is stored is shown to depend on the tag alone (`un_alike`).
* **C59** partial: a stream of values written by a LineEncoder and read by a LineDecoder.  The texts written for the
  types of C40 have no whitespace at all (`plain`, RoundThms.v), so each is one line; a MarshalJSON that writes a
  newline breaks the stream (`C59_refuted`).  `C59_line`: what a call makes of any line.
* **C69** partial: the tree that is written (TreeSpec.v: `tree`, by method or by kind, and `struct_fields`, `dropped`,
  `reaches` for structs).  A nil slice is an empty array.  The proof is that of C41 with the tree instead of validity.
  The order of map entries is any permutation; apart from that and from methods the tree is unique (`C69_unique`, for all
  types without methods and values whose maps have at most one entry).  A struct with a marshaling method and none for
  unmarshaling may be written by its fields (C55).  `C56_tree_partial` is the same for encoder objects.

### The code generator, texts of errors (`PropsGen.v`, `PropsErr.v`, `PropsFile.v`)
Generated code is a term with one constructor for each template; `runAppender` and `runUnmarshaler` execute it.
* **C60** partial: for which types the generator ends, makes code, and makes code that compiles, all exact
  (`needs`, `codeless`, `correct_go`).  Refuted: it accepts types for which the code does not compile
  (`C60_append_refuted_example` and `C60_unmarshal_refuted_example` list some), and if tags are equal the code depends on
  the order in which Go walks a map.  The proofs relate fuel to `loops` by counting types.
  Names go into the code between quotes or backquotes as they are: `GoLit.v` reads string literals of Go, `GoLitSpec.v`
  is the grammar of the language specification, GoLitThms.v proves them equal.
  `C60_fields` and `C60_order` say independently which fields take part and how tags are ordered.
* **C61** partial: one RFC 8259 text of the tree `shown`, or the error of a method.  Refuted: keys of type string are
  quoted twice; NaN; a name with a backslash; a struct that has AppendJSON from an embedded field calls itself.
* **C62** partial: `filled` says what is stored, `refused` which error; both are exact for types read by their kinds
  (`C62_exact`).  Refuted: a slice that grows is too long; a string takes any value; null is an error in a field.
* **C63** partial: writing with one generated method and reading with the other (GenRound.v).  The proof of C61 is made
  for any class of values closed under parts (Section Write, GenApp.v), here those of `gsurvives`, whose text is
  `compact`; C62 gives the value read.  Refuted without each hypothesis on values, `paired` and names.
* **C64** partial: texts of errors (ErrThms.v).  A quoted string is a list of pieces (runes and stray bytes), each
  written with a code that `next` reads back, so messages can be taken apart.  `isPrint` (`strconv.IsPrint`) is any
  function; for `C64_line` it must refuse control characters.  Refuted: type errors leave out the types wanted when
  the type is one of them.
* **C65** partial: the generated file (GenFile.v, GenFileThms.v).  The map of imports is a list of pairs, and the order in
  which it is walked any permutation of it; the file is taken apart into lines.  `path/filepath.Base` is written out,
  `strconv.IsPrint` an unknown function as in C64.  Refuted: two packages of the same name are both imported under it, and
  the file does not compile.
* **C66** partial: the command.  `regexp.Compile`, the types of the package, the code of the methods, `PrintTo` and
  `os.Create` are inputs, any functions; log.Fatal is an outcome.  Refuted: the file is lost when the code cannot be
  formatted (it is created first); the types behind the first one are ignored, although the usage text is
  `[pkg] [type...]`; the receiver of the methods of `_T` is the blank identifier, that of `Ä` is U+FFFD.
* **C67** partial: test cases (NjTest.v, NjTestThms.v).  Values are of any type V in the cells of a memory, so that a pointer
  that is both the test's value and the one read into is one cell; which methods a value has and what they do,
  `json.Marshal`, `reflect.DeepEqual` and the functions given as options are inputs.  `Document.Parse` is the model of C02.
  `C67_panics`: what a method may return that makes a run of AppendJSON panic.
  For `C67_unmarshal` the method must depend on the tree of its node alone and keep the cells (`h`).  Refuted:
  a missing method is reported by `AppendJSON` (it reports it, goes on and panics in `Call`); the result is compared with
  the value as it was; a test can be run twice (a reader is empty then); the data are one JSON text.
* **C68** partial: texts of struct tags (Tag.v, TagThms.v).  `StructTag.Lookup` and `strconv.Unquote` follow their
  documentation; surrogate halves in escapes are errors, as since Go 1.18.  A tag in UTF-8 is never shorter than a value
  in it, which is the condition of C45.  Refuted: tags that are not UTF-8; the generator's
  `ParseFieldTag`, which nothing calls, takes `noomitempty` for `omitempty`.
* **C70** proved: constructors (NewSpec.v: `made`: one more node, denoting the tree, nothing else changed; NewThms.v).  Text and
  TextHTML by C26/C27, Number by C38; `C70_number_refuted`: NaN and the infinities give a node that is no JSON.  The root and
  `AppendJSON` of a document: `C70_root`.
* **C71** proved: flags and options (CmdOpts.v, CmdSpec.v: `cmd_field` says from the flags which fields take part and under
  which names; `cased` is the table of `-case`).  `strcase`, `strings.ToLower` and `regexp.Compile` are inputs, as is the
  absolute path.
* **C72** partial: the generated AppendJSON and Marshal (AgreeSpec.v, AgreeThms.v).  By C61 one writes the tree `shown`, by C69
  the other `top_tree`; they are `same` (members in any order), by induction on the derivation of `shown`.  That both find the
  same fields is a hypothesis (`same_fields`), proved for structs without embedded fields (`C72_fields_partial`).  Missing:
  methods, the hints html and 8bit, omitempty on structs, maps.  Refuted: nil pointers without omitempty (one leaves them
  out), floats (Marshal rounds to 32 bits).
* **C73** partial: the table generator (MapCmd.v, MapSpec.v: `entry`, `asks`, `table_lines`; MapThms.v).  The functions of package
  unicode are inputs; text/template writes maps by their sorted keys.  That `%q` gives a Go literal of the table is
  by the pieces of C64 and the grammar of C60.  Refuted: sets of one byte; failing runs keep the file.
* **C74** partial: the generated UnmarshalNodeJSON and Unmarshal (AgreeUSpec.v, AgreeUThms.v).  By C62 one gives `filled`, by C43
  the other `stored`; by induction on the derivation of `filled` they are the same value.  Missing: targets that are not zero
  values, maps, methods, empty arrays and repeated keys; that both find the same fields is a hypothesis (`same_reads`),
  proved for structs without embedded fields (`C74_fields_partial`).  Refuted: empty arrays (nil or not), repeated keys
  (a slice gets an element too many), null for numbers, numbers for strings.
* **C75** proved: the cost of a parsed text (ResSpec.v, ResThms.v, MemCost.v).  The nodes Parse adds are the preorder layout of the
  tree, so one per value; the grammar bounds the values by the bytes.  `C75_memory` counts cells in the memory model by an induction
  over the parser with a credit of four cells per node for the doubling of `appendV` and `node()`; it needs no invariant and covers failures.
* **C76** partial: reset and parse again (MemReuse.v, ReuseThms.v).  A parse that finds room for what each node ends up with leaves all
  array sizes and node capacities alone (`good_all`, `still`); after the first parse each node has the room its own values take.  Refuted for texts that end early.
* **C77** partial: Marshal against json.Marshal (StdSpec.v; PropsStd.v).  `std` says from the documentation of encoding/json what it
  writes: fields with the dominance rules of embedding, tags, base64, the option string.  By C69 Marshal writes `top_tree`; StdFields.v shows
  that the fields its codec keeps are the dominant ones, StdThms.v the rest by induction on the tree.  Which runes are letters is an
  input.  `C77_unique`: the specification allows one value.  Missing: methods, and what is refuted: nil slices, bytes, float64
  (rounded to 32 bits), integer keys, nil pointers, and six cases of fields.
* **C78** partial: Unmarshal against json.Unmarshal (StdUSpec.v; PropsStdU.v).  `loads` says from the documentation of encoding/json what
  is stored, `generic` what goes in an interface{}; there is no rule where json.Unmarshal returns an error.  By C43 Unmarshal stores
  `stored`; StdUThms.v shows that what `loads` has is no mismatch and that the two store the same.  Which names are the same but for
  case is an input.  `well` excludes what is refuted: keys of another case or with escapes, numbers that are not read exactly, strings
  that end in a backslash.  Missing: methods, maps as targets (refuted for nil maps), targets that are not zero (refuted for null), keys twice.
* **C79** partial: positions of parse errors (ErrPosSpec.v; PropsPos.v).  `parse_local` is one induction over the five functions of the
  parser: the error at the end of a prefix u comes whatever follows the token, and u followed by what was wanted is a
  prefix of a text of the grammar of C02.  `_refuted`: a misspelt literal is reported at its first byte; after `[` the closing bracket is not among what is wanted.
  `C79_eof`: the type in UnexpectedEOF is that of the innermost unfinished value (`unfinished`, a grammar of truncated texts;
  `parse_early`, one more such induction).  An equivalence: `early_conv` is the
  converse, by induction over that grammar, so each text has at most one such type.
