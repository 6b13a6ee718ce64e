# Formal model of yunionio/jsonutils in Rocq (Coq 8.16.1)

## 1. Approach

The Go code is re-stated, function by function, as total computable Gallina
functions.  Every definition of the model cites the Go file and lines it
stands for, and says where it simplifies.  Specifications live in separate
`Spec*.v` files which do not mention the model's functions (only, where
unavoidable, the data types of `Json.v` and `Gotypes.v`).  The theorems about
property Cnn are named `Cnn_...` and are collected in `Prop*.v`, each with
concrete examples that meet its hypotheses.  Nothing is bounded: no theorem
limits sizes, depths, numbers of steps or histories.

* Go strings / byte slices: `list byte` (`Coq.Init.Byte`).
* int64 and other integers: `Z`, with explicit range checks where the code
  checks, and explicit wrap-around where it converts.
* float64/float32: a concrete binary format (sign, mantissa, exponent) with
  correct rounding written over `Z` (`Base.v`, `Strconv.v`); no axioms, no
  reals.  `SpecFloat.v` says independently what correct rounding is.
* Errors are values; a Go run-time panic is an explicit third outcome.
* Loops become structural recursion or recursion with fuel and an explicit
  out-of-fuel outcome that is proved unreachable (C05, C15, C31, C32, C34, C37).
* Parser offsets: the parser works on the remaining suffix; the offset of the
  Go code is (length of the input - length of the suffix).
* Sharing and mutation: `Heap.v` (dict/array nodes at addresses) for
  DeepCopy/Set/Add, `Unmarshal.v` (Go variables at addresses, pointers to
  them, sub-variables) for Unmarshal, `Marshal.v` (a store of Go objects,
  possibly cyclic) for Marshal.
* Unspecified behaviour (Go map iteration order, the key comparison of
  case-insensitive lookup, the regular expression matcher of currency.go) is
  an argument of the model's functions, and the theorems hold for all values
  of it, or under a hypothesis stated in the theorem.

## 2. Files

| model | models |
|-------|--------|
| `Base.v`, `Strconv.v`, `Utf8.v` | bytes, floats; the part of Go's strconv/unicode that is used (ParseInt, ParseUint, ParseFloat, Itoa, FormatFloat 'f' -1 and %f, rune encoding) |
| `SortedMap.v` | contract of `sortedmap.SSortedMap` (not in /repo): sorted association list |
| `Json.v`, `Printer.v`, `Parser.v`, `JErrors.v` | jsonutils.go, write.go, string.go, parse_session.go, errors.go |
| `Access.v` | access.go, dict.go, clone.go (copies), size.go, length.go, values.go, utils.go, iszero.go, currency.go |
| `Equals.v`, `Native.v` | equals.go; interface.go |
| `Query.v` | querystring.go, stringsegment.go, net/url escaping |
| `Heap.v` | clone.go, access.go (Set, Add, SetAt, Remove) on shared nodes |
| `Gotypes.v`, `Marshal.v` | marshal.go, marshal_session.go, json_pointer_trace.go, jsonpointer.go, std_json.go (marshal side) |
| `Unmarshal.v` | unmarshal.go, unmarshal_session.go, jsonpointer.go:75-84, std_json.go (indirect) |

Further model files are listed with their properties below (C41, C42, C45 and
later).  Files `*Facts*.v`, `Gram.v`, `FloatText.v`, `Round*.v`, `Unm*.v`,
`Marshal[A-Z]*.v`, `Restore*.v`, `ParseInv.v` hold lemmas only.  Files
`Case*.v` apply the theorems to concrete values that meet their hypotheses
(the theorems not named there have such examples beside them in `Prop*.v`).

## 3. Properties: what is modelled, how it is proved

| id | modelled | proof |
|----|----------|-------|
| C01 C02 C03 C04 C08 | printer, pretty printer, parser, strconv | one completeness theorem "the parser accepts the texts of the grammar with their meaning" (`Gram.v`, `ParserFacts2.v`); printers produce texts of the grammar; RFC 8259 as an inductive relation in `SpecRFC.v`; the round trip is stated exactly for float-free values and through the printed decimal for floats |
| C05 C13 | parser | fuel monotonicity and length bound by induction |
| C06 C07 | parser | positive theorem (panic iff a described shape); refutations by witness |
| C09 C10 | quoteString, parseQuoteString, UTF-8 | structural induction, sweeps over the 256 bytes |
| C11 | parser + sorted map | invariant over the parser |
| C12 | ParseJsonStreams | induction on the document list; for every input: `splits` (PropStreams.v), a relation over the grammars of C54 and C55 that determines the result, total and functional |
| C14 C15 C19 C20 C23 | sorted association lists | refinement to functions key -> option value over operation sequences |
| C16 C17 C18 | access.go | induction on paths |
| C21 | Equals | nested induction; characterised as structural equality of the contents |
| C22 | heap of dict/array nodes | freshness/separation invariant over arbitrary mutation histories |
| C24 C25 C26 | querystring.go, stringsegment.go, url escaping | induction over the dict; uniqueness of sorted lists; the text of a query string by `SpecQueryText.v` (one part per leaf) |
| C27 C38 C39 | strconv, access.go | arithmetic; `SpecFloatText.v` states the syntax of ParseFloat (both bases, underscores, cut exponents) and `FloatSyntax.v` proves the scanner accepts exactly it (C27, C43); shortest-decimal theorem for floats (`Shortest.v`: what rounds to a float is an interval, so only the two neighbours at each exponent matter) |
| C28 | errors.go | arithmetic |
| C29 | Marshal and Unmarshal together | bisimulation of the store with the memory, simultaneous induction over the marshalling run (`Restore*.v`); texts of fields with the string option: `TextScalars.v` |
| C30 C32 | marshal.go | induction on the field list; measure on the visited set |
| C31 | marshal session over an object graph | invariant on the trace (`MarshalTerm.v`, `MarshalRefs.v`, `MarshalOrder.v`) |
| C33 | unmarshal session | state machine over definitions/references; `UnmHistory.v` proves that a run of Unmarshal produces such a history |
| C34 C40 C43 C44 | unmarshal.go | fuel bound from types (C34); frame lemmas (C40); one equation per kind (C43) and per container (C44) against tables written in `SpecConvert.v`, `SpecContain.v` |
| C35 C36 C37 | currency.go, iszero.go, interface.go, utils.go | induction |
| C41 | YAMLString/ParseYAML around an arbitrary converter | the library github.com/ghodss/yaml is not in /repo: the theorem takes the two conversion functions as arguments, with the contract spelled out in its statement (partial) |
| C42 | NewTimeString, GetTime | calendar arithmetic; the parsers of timeutils are arguments with a stated contract |
| C45 ... | see section 6 | |

## 4. Trusted base

* Coq 8.16.1's kernel (no `-type-in-type`, no switched-off guard, positivity
  or universe checks; `vm_compute` is used in proofs, so the VM is included).
* `Print Assumptions` of every theorem in MANIFEST.json answers "Closed under
  the global context": no axioms, neither own nor of the standard library.
  (The checker's list of library constants without a body shows seven names
  `Coq.ssr.ssrunder.Under_rel.*`; these are fields of a module type of Coq's
  own ssreflect plugin files which are loaded with the standard library.  No
  theorem depends on them.)
* Only Coq's standard library is imported.  No functors, module types,
  sections with leftover variables, or plugins of our own.
* The correspondence between the Go text and the model, read by hand and
  cited per definition, and the simplifications listed next.

## 5. What is modelled and what is not

Modelled exactly: parsing (all three quoting styles, numbers, references,
`<n>` node ids), printing (compact and pretty), escaping, string/number
conversions, dict and array access, updates, copies, comparison, query strings
in both directions, error text excerpt, marshalling of a universe of Go types,
unmarshalling into a universe of Go types.

Simplifications:

* *Null*.  The code compares with the pointer `JSONNull` in places
  (`access.go:115`, `utils.go:107`, `142`); the model takes every null to be
  that pointer, except in `Heap.v` and `NullId.v`, where the outcome of the
  comparison is a parameter (`isnull`, C52_null_identity, C66).  Nil interfaces of type JSONObject inside containers are
  modelled in `Heap.v` and `HeapRead.v` (C22, C52, C62), elsewhere only as results.
* *sortedmap* (`Add`, `Get`, `Delete`, `DeleteIgnoreCase`, `GetIgnoreCase`,
  `Keys`, merge, diff) is represented by its documented contract; case folding
  is a parameter `ceq`.
* *net/url*: `QueryEscape`, `ParseQuery` re-written from their documentation;
  the order of the parsed map is a parameter.
* *sort.Sort* is represented by insertion sort; theorems that use it rest on
  the result being sorted and a permutation, which determines it because the
  order is strict and total (C26).
* *regexp* in currency.go and `regutils` in unmarshal.go: re-written as
  matchers over bytes, or taken as parameters.
* *reflectutils* (field discovery, tags, lookup of a field by JSON name): the
  model starts from the list of field descriptions, lookup by name is the
  contract `locate`.
* *Marshal*: a pointer's identity is its address in the store together with
  its type; `GStd` stands for objects with their own MarshalJSON, `*time.Time`
  included; the iteration order of Go maps is the parameter `pick`
  (marshalMap sorts the keys, so that the result does not depend on it);
  panics and self-containing maps and slices are in `MarshalX.v` only (C56), and
  maps with keys other than strings are modelled by themselves (`MapKeys.v`, C61),
  NaN keys, whose entries Go cannot look up, are not;
  `fmt`'s `%f` is `format_f6`.
* *Unmarshal*: `tristate.TriState` is its own string kind; out-of-range
  float-to-integer conversions follow amd64; a float32 variable holds the
  widened float64; embedded struct pointers are in
  `Embedded.v` only (C60: those of the target struct itself);
  the factory of a `gotypes.ISerializable` interface (kind `TSer`, C67) makes a
  new struct with the zero value, or nothing, and only pointers to that struct
  implement the interface; recursive pointer types `type P *P` are not modelled; pointers to pointers held in `interface{}` variables are followed in `UnmIface.v` (C73), and only there: `Unmarshal.v` is the same without lines 51-58, which C73_agrees shows to make no difference where no such pointer exists and the document has no `<n>` references
  (`AfterUnmarshal` methods are, in `UnmHook.v` and `Hooks.v`, C53);
  JSON objects in variables are held by value; a pre-set `json.Unmarshaler`
  is taken (kind `TMethods`) but its own method is outside the model.
* *Interface()*, *Equals* and the getters on results of Marshal with linked
  references, cyclic ones included, are modelled separately (`Linked.v`, C50);
  everywhere else references are not linked, as the parser leaves them.
* Not modelled: github.com/ghodss/yaml, the time package's parsing, logging,
  `gotypes` registration in reflect.go (init), goroutines that write (the
  package starts none and keeps no global mutable state besides the
  registration done in `init`; goroutines that only read are modelled in
  `Concur.v`, C51, on sequentially consistent memory).

## 6. Later additions

C43 and C44 were added when Unmarshal was modelled in full; the properties
from C45 on were added as the model grew and are described in
`properties.jsonl`; their plan is the row "C45 ..." here:

| id | modelled | proof |
|----|----------|-------|
| C45 | `Construct.v`: NewDict, NewArray, NewString..., Value, Length, Size, NewStringArray, GetStringArray, QueryBoolean | `PropConstruct.v`: fold of the sorted map against "the last pair with this key"; string arrays through C01 |
| C46 | `Deserialize.v`: JSONDeserialize on top of Parse and Unmarshal, for the three registered types | `PropDeserialize.v`: composition of the parser invariants, C01 and the dict and array cases of Unmarshal |
| C47 | `Alias.v`: the type switches of unmarshal.go for JSON-typed variables on the object heap of `Heap.v`, histories of calls | `PropAlias.v`: case analysis with a frame, invariant over histories; agreement with the value model of `Unmarshal.v` is itself a theorem |
| C50 | `Linked.v`: the methods of a reference that holds its dict, for any assignment of dicts to references | `PropLinked.v`: against `unfold_refs` of `SpecLinked.v`, induction on the depth of unfolding and the value; Equals by the height of the argument |
| C49 | composition of `Marshal.v`, `Printer.v`, `Parser.v`, `Unmarshal.v`; `SpecWritable.v` says what text can carry | `TextRestore.v`, `PropPersist.v`: Unmarshal does not tell a JSON value from what its text reads as, when the value fits the type (induction on fuel); results of Marshal fit and are printable (induction on `encodes`); then C29 and C01 |
| C48 | `Update.v`: Marshal followed by Unmarshal (`SpecUpdate.v`: `arrives`, `aligned`) | `PropUpdate.v`: composition of C30/C31 (what Marshal gives) with the field loop of Unmarshal, fold over the members of the dict with a frame; C40 for the fields not named |
| C51 | `Concur.v`: JSONFloat.String access by access, readers as resumptions, goroutines under a schedule | `ConcurFacts.v`, `PropConcur.v`: invariant (heap equal up to unset widths, a continuation's result on the initial heap, a step bound) over all schedules |
| C52 | `Heap.v` with `h_get`, `h_get_ic`, `h_get_at`, and the pointer comparison of `Add` as a parameter; `SpecShare.v`: paths through objects, `replaced`, `put_at` | `ShareFacts.v`, `PropShare.v`: structural induction on the value an object stands for; no cycles by size; `Add` by induction on the keys with a frame |
| C53 | `Hooks.v`: callStructAfterUnmarshal over embedding structs, Go's method promotion as the contract `go_selects` (`SpecHooks.v`); `UnmHook.v`: Unmarshal with methods that change variables | `HooksFacts.v`, `PropHooks.v`: the calls are the hooked parts sorted by `before`, induction on the recursion; `PropHookRun.v`: erasure to `Unmarshal.v`, the last call, a bound by the number of dicts |
| C54 | `Parser.v` as it is; `SpecLenient.v`: the accepted language as a grammar (words, both quotes, escapes, open ends, node ids) | `LenientFacts.v`, `PropLenient.v`: derivations give runs (mutual induction on the grammar), runs give derivations (induction on fuel); words by C27's float and integer syntax |
| C55 | SpecRefuse.v: a grammar of wrong texts (what was read, what is left, error or panic) next to SpecLenient.v; Parser.v | RefuseFacts.v: by induction on the derivation, the parser stops there with this error or panic; by induction on the fuel, a run that stops has such a derivation; PropRefuse.v: both directions for Parse and ParseStream, no text accepted and refused, one reason |
| C56 | `MarshalX.v`: Marshal with panics, on values that may also be named booleans, shared or self-containing maps and slices, and objects whose MarshalJSON fails; `SpecMarshalPanic.v`: what is visited, what cannot be handled, what never ends | `MarshalXFacts.v`: a panic comes from a visited value (induction on fuel), a call that returns leaves no trouble reachable past the pointers already followed (invariant on the trace), agreement with `Marshal.v`; `MarshalXEnd.v`: termination by pointers not yet followed, then cells not yet on the path, then depth |
| C57 | `ByValue.v`: `Unmarshal_passed`, Unmarshal of nil and of a value that reflect can neither set nor address (a copy of the caller's, in memory of its own); the variables its slices, maps and pointers hold are unmarshalled into by the model of C39–C48 (`Unmarshal.v`). Types with UnmarshalJSON are taken to be structs; references that would be set into the value are modelled as a panic and left out of the theorems, except at the top. | `SpecByValue.v` tables what fits (`gives_up`), what would have to be set (`would_set`) and what is reached through slices, maps and pointers (`takes`); `C57_cases` shows that the three cover everything; the rest by cases and, for `C57_unchanged`, the frame invariant of `UnmFrame.v` with the variables the value holds in the place of those the target reaches. |
| C58 | `LinkedUnm.v`: Unmarshal of a linked reference; otherwise `Unmarshal.v` and `Access.v` | keys by induction over the path; references by the invariant that no dict of the value has the node id of a reference in it (`loose`, `quiet` in `UnmTotal.v`), so the session does not matter (`UnmAlike.v`) |
| C59 | `Unmarshal.v`; `SpecSame.v`: a one-to-one correspondence between variables of two memories under which the contents are the same | `UnmSame.v`: every part of Unmarshal, run on corresponding memories, sessions and targets, gives equal results and memories that correspond under an extension (new variables correspond to new ones); by induction on the type for allocation, zeroing, copying and the search for UnmarshalJSON, on the fuel for the recursion |
| C60 | `Embedded.v`: setStructFieldAt and unmarshalStruct with the parents of fields; the structs that FetchStructFieldValueSet makes for nil pointers are in memory from the start, and the fields' variables of the struct are listed with theirs | `EmbFacts.v`: simulation with the loops of `Unmarshal.v` on the variables the struct leads to (`UnmSame.v`, `UnmFrame.v`; the pointers are outside); an invariant of the loop over the names visited gives which pointers are set |
| C61 | `MapKeys.v`: the keys of a map of any type, their order and their names; the loop is that of `Marshal.v` | `MarshalPlain.v`: in memory without cycles Marshal is compositional (the trace is as before after every value, by the invariant that everything on it leads to what is being marshalled); then induction on the fuel with permutations of the members |
| C62 | `HeapRead.v`: String, PrettyString, Interface, QueryString and Equals on the heap of `Heap.v`, with three outcomes (returns, panics, still running); `SpecNil.v`: nil inside, cycle inside | `HeapReadFacts.v`: the four methods are instances of one walk that returns iff the object can be read as a value, whose panics lead to a nil, and whose non-termination gives a chain longer than the heap, hence a cycle; `EqualsNil.v`: the same for Equals in two objects, and DeepCopy of values with references |
| C63 | `Query.v`; `SpecQueryParse.v`: grammar of query strings, values given for a key, paths of keys | `QueryParseFacts.v`: decoding equals the grammar by induction on the text; the entering loop fails at the first orphaned key with a new first part; invariants of the loop over the sorted keys (shorter ones first): what was set stays, what is in the dict comes from the query, and for dict queries the dict holds exactly the keys entered so far that are not hidden (each step is an `Add` as in C16, or changes nothing) |
| C64 | `Marshal.v` (the JSON cases of `_marshalValue`, 289-310, and slices and maps of them); `SpecPass.v`: what an interface holds that was assigned a JSONObject | one computation with a result settles all of them (fuel monotonicity); induction over the elements with an empty pointer trace |
| C65 | `Marshal.v`; `SpecMarshalSame.v`: values with the same contents up to a correspondence of variables | simulation of two runs: the pointer traces correspond entry by entry, so every lookup has the same answer (one-to-one correspondences); without cycles Marshal is the trace-free function of `MarshalPlain.v`, for which any correspondence will do |
| C66 | `NullId.v`: CheckRequiredFields and GetArrayOfPrefix on the heap of `Heap.v`, the outcome of the comparison with JSONNull a parameter | induction over the fields and over the index; agreement with the functions on values through the reading of the heap; copies by C22's facts (members of the copy are new objects) |
| C67 | `Unmarshal.v` (`un_serial`, unmarshal.go 506-531); `SpecConvert.new_variable` | the inner call's session differs from that of a call by itself only in an entry that it overwrites (`UnmTwin.v`: the outcome depends on what is found in the session); framing with an empty set of old variables (`UnmFrame.v`); C59 for the object, restricted to new variables, extended by the interface |
| C68 | `Marshal.v` (marshal_int, marshal_float, marshal_bool with fi_force_string), `Unmarshal.v` step_string; `SpecRestore.survives_text` | C30 for the text; C48 with the struct as its own source for the way back; texts of floats by `format_f6_decimals` and `parse_float_iff`, exactness by uniqueness of rounding |
| C69 | `Marshal.v` (`GStd`), `Unmarshal.v` (`indirect`, `call_std`, the `std` step of `unm`); `SpecMethods.v` | Marshal: inversion of C30's relation; Unmarshal: induction on the number of pointers, once from zero values, once in well-typed memory |
| C70 | `Parse`, `String_`, `PrettyString`, `QueryString`; `SpecUtf8.v`: `utf8_text` (RFC 3629), `utf8_value`, `no_high_escape` | induction over the grammar of C54 (every element, escape and unquoted word starts and ends at a character boundary, as all delimiters are ASCII); the printers only insert ASCII or replace ASCII bytes (text well-formed iff its characters are); a scan of the printed text for escaped x |
| C71 | `Parse`, `ParseJsonStreams`, `String_`; `SpecSize.v`: `nodes`, `text_bytes`, `depth`, `openings` | induction over the grammar of C54: containers weigh at most the length of their text, other values one more; the members kept are among those read, each once; C12's characterisation for streams |
| C72 | `Marshal`, `QueryString`, `ParseQueryString`, `Unmarshal`; `SpecQueryCarry.v`: which scalars are meant by their texts | C24 and C29 composed: Unmarshal does the same with a JSON value and with its form in a query string, if the value was marshalled from a variable of the type (`QueryRestore.v`, induction over C30's relation) |
| C73 | `UnmIface.v`: `Unmarshal` with lines 51-58 of std_json.go; `SpecIface.v`: `leads`, `on_cycle`, `trapped`, `dead_end` | the walk without bound as all its bounded prefixes; a prefix longer than memory repeats a variable (pigeonhole), and a repeated one goes round for ever (strong induction); agreement with `Unmarshal.v` by induction over the walk with the invariant that no interface{} variable holds a pointer to a pointer |
