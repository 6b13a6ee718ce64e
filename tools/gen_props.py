# Generates properties.jsonl (one JSON object per line).
import json
P=[]
def p(id,title,statement,quantifier,why,anchors):
    P.append(dict(id=id,title=title,statement=statement,quantifier=quantifier,why_tests_cant=why,anchors=anchors))
p("C01","Serialise/parse round trip",
 "Parsing the text produced by String() on a JSON value gives back a value with exactly the same content (type, numbers, string bytes, element order, key set), consuming all of the text. Excluded, because the code really differs there: a float whose value prints as an int64 literal comes back as an integer (e.g. 1.0 -> 1), a float32-tagged float, dicts that use the reserved member name ___jnid_, and unresolved node references.",
 "every JSON value built from null, booleans, int64, float64 (incl. NaN and infinities), arbitrary byte strings, arrays and dicts, of every size and nesting depth",
 "values are unboundedly large and nested; strings range over all byte sequences, floats over 2^64 bit patterns",
 ["jsonutils.go:Parse","jsonutils.go:parseQuoteString","jsonutils.go:parseJSONValue","write.go:buildString","string.go:String","jsonutils.go:quoteString"])
p("C02","Serialisation is injective",
 "Two JSON values with the same String() text have the same content (under the same exclusions as C01), so text comparison is a sound equality test.",
 "every pair of JSON values","a statement about all pairs of values",["write.go:buildString","string.go:String"])
p("C03","String() emits RFC 8259 JSON meaning the same value",
 "String() of every value without NaN/Inf and without node references is a text derivable in the RFC 8259 grammar (byte level), and what the RFC grammar says the text denotes is the value itself (integral floats denote the equal integer).",
 "every JSON value with finite floats","grammar membership for unbounded texts cannot be sampled",["write.go:buildString","jsonutils.go:escapeJsonChar","string.go:String"])
p("C04","Parse accepts every RFC 8259 text with its meaning",
 "For every RFC 8259 JSON text (any insignificant whitespace, any escapes except surrogate \\u escapes, any number that does not overflow float64, any duplicate member names: last wins) that does not use the reserved member name, Parse succeeds and returns the denoted value: integers in int64 range become ints, other numbers the nearest float64, strings the decoded UTF-8 bytes.",
 "every RFC 8259 text","the set of texts is infinite and recursive",["jsonutils.go:Parse","jsonutils.go:ParseStream","jsonutils.go:parseDict","jsonutils.go:parseArray"])
p("C05","Parsing terminates and stays in bounds",
 "ParseStream on every input and start offset stops (value, error or Go panic), never reads or reports an offset outside the input, and a success from a non-empty document consumes at least one byte and returns an offset between the start and the input length.",
 "every byte string and every offset within it","needs an argument over all inputs; a hang or over-read may only show on one rare input",["jsonutils.go:ParseStream","jsonutils.go:parseDict","jsonutils.go:parseArray","jsonutils.go:skipEmpty"])
p("C06","Parse panics only on empty values and on node ids",
 "For untrusted input Parse returns a value or an error, and does not panic, if no value position of the text is empty and the text neither spells the reserved member name ___jnid_ nor has an escape in a member name that could spell it. These exceptions are real (so the wish that Parse never panics is FALSE of the code): an empty value position (e.g. '[,]', '{\"a\":}' or '}'), a non-integer ___jnid_ member, and a duplicated node id all panic. (C55 tells exactly which texts panic and how.)",
 "every byte string","panic-freedom is a claim about all inputs",["jsonutils.go:parseJSONValue","jsonutils.go:parseDict","parse_session.go:saveNode"])
p("C07","Truncated documents are rejected, except where a value is still expected",
 "A proper prefix of a JSON container text is rejected with an error unless it ends at the opening bracket or after a comma of the outermost container; those prefixes are accepted as the container of the complete elements or members before the cut. (So the wish that every truncated document is rejected is FALSE: '[', '{', '[1,', '{\"a\":1,' and any unterminated quoted string parse successfully.)",
 "every serialised container and every cut point","quantifies over every document and crash/cut point",["jsonutils.go:parseDict","jsonutils.go:parseArray","jsonutils.go:parseQuoteString"])
p("C08","PrettyString means the same as String",
 "PrettyString() parses to the same value as String(), for dict keys with no quote, backslash or other escape-requiring bytes and no node ids. FALSE when a key contains a quote or backslash, because PrettyString writes keys unescaped.",
 "every JSON value and nesting depth","unbounded values",["jsonutils.go:prettyString","jsonutils.go:jsonPrettyString"])
p("C09","String quoting is safe and lossless",
 "The quoted form of any byte string begins and ends with a double quote, contains no raw control byte, no unescaped quote or backslash in between, leaves bytes >= 0x20 other than quote and backslash untouched, and decodes to the original bytes for either closing behaviour.",
 "every byte string","all byte strings",["jsonutils.go:quoteString","jsonutils.go:escapeJsonChar","jsonutils.go:parseQuoteString"])
p("C10","Escape decoding",
 "Inside a quoted string \\uXXXX decodes to the UTF-8 encoding of that code point (surrogate halves each to U+FFFD), \\xHH to that byte, the short escapes to their control characters, any other escaped byte to itself.",
 "every escape and every surrounding text","65536 code points x arbitrary context",["jsonutils.go:hexstr2rune","jsonutils.go:hexstr2byte","jsonutils.go:hexchar2num","jsonutils.go:parseQuoteString"])
p("C11","Parsed dicts are canonical",
 "Every dict inside a parsed value has strictly increasing (bytewise) distinct keys; of duplicate members the last wins; so re-serialisation does not depend on member order in the input.",
 "every accepted input","all inputs and all permutations of members",["jsonutils.go:parseDict","jsonutils.go:SortedKeys"])
p("C12","Stream splitting",
 "ParseJsonStreams on a sequence of serialised containers separated by bytes that contain no bracket returns exactly those containers in order, with no error; on any input it stops; it reports an error only if nothing was parsed. For every input at all it returns the values found by this rule: skip to the next opening bracket; if a value that Parse accepts (C54) starts there, take it and go on behind it; otherwise count an error and go on behind the bracket; a text that makes Parse panic (C55) ends it with that panic.",
 "every list of containers, every separator","arbitrary number and size of documents",["jsonutils.go:ParseJsonStreams"])
p("C13","ParseStream positions compose",
 "ParseStream at an offset behaves as parsing the suffix from that offset, leaves what follows a complete container untouched, and returns the offset just behind it, independent of what follows.",
 "every input, offset and trailing bytes","all inputs and continuations",["jsonutils.go:ParseStream"])
p("C14","A dict is a finite map under any operation sequence",
 "After any sequence of Set, Remove, RemoveIgnoreCase, Update, UpdateDefault calls, Get/Contains/SortedKeys/Size/Length/GetMap answer as a mathematical finite map on which the same operations were performed, keys are listed in strictly increasing order, and Remove reports whether the key was present.",
 "every operation history","unbounded histories",["access.go:Set","access.go:Remove","access.go:Get","dict.go:Update","jsonutils.go:SortedKeys","size.go:Size"])
p("C15","Case-insensitive removal and lookup",
 "RemoveIgnoreCase removes every key that equals the given key up to case, nothing else, terminates, and reports whether any was removed; ContainsIgnoreCases/GetIgnoreCases succeed exactly when such a key exists.",
 "every dict and key","all dicts and keys",["access.go:RemoveIgnoreCase","access.go:GetIgnoreCases"])
p("C16","Path insertion",
 "dict.Add(v, k1..kn) with n>=1, when it succeeds, makes Get(k1..kn) return v, creates missing or null intermediate dicts, and changes no path that is not a prefix or an extension of k1..kn; it fails exactly when some intermediate value exists and is neither null nor a dict, and then the dict is unchanged.",
 "every dict, path and value","paths of any length",["access.go:Add"])
p("C17","Path lookup",
 "Get along a concatenated path equals Get along the first part followed by Get on the result; Contains holds exactly when Get succeeds; the error tells apart a missing key from a non-dict on the way; lookups never change the dict.",
 "every value and path","paths of any length",["access.go:Get","access.go:Contains","access.go:_get"])
p("C18","Array indexing",
 "GetAt(i) returns the i-th element for 0<=i<n, the (n+i)-th for -n<=i<0, an out-of-range error otherwise; GetArray returns a fresh copy of all elements; Add appends; SetAt changes one position only.",
 "every array and every int index","all indices",["access.go:GetAt","access.go:GetArray","access.go:SetAt","access.go:Add"])
p("C19","Update bias",
 "Update(other) gives the union where other wins, UpdateDefault(other) the union where the receiver wins, non-dict arguments change nothing.",
 "every pair of dicts and key","all pairs",["dict.go:Update","dict.go:UpdateDefault"])
p("C20","Diff partitions the keys",
 "Diff(a,b): every key of a or b is in exactly one of the four results; aNoB/bNoA hold the values only on one side, aAndB the values that are Equal, aDiffB the pair [a-value, b-value] of unequal ones; Diff(a,a) of NaN-free values has only aAndB.",
 "every pair of dicts","all pairs",["dict.go:Diff"])
p("C21","Equals is structural equality",
 "Among values without unresolved node references Equals is symmetric, transitive, holds exactly between values of identical content (type-sensitive: int 1 is not float 1; +0 equals -0), is reflexive except when a NaN is inside, and does not depend on dict insertion order or node ids. FALSE with references: an unresolved reference answers as null on the left but not on the right, so symmetry fails.",
 "every pair/triple of values","all values",["equals.go:Equals"])
p("C22","DeepCopy is equal and independent",
 "DeepCopy(v) has the same content as v, and any sequence of mutations applied to nodes reachable from the copy leaves every value reachable from the original unchanged, and vice versa. Copy() of a dict is independent at the top level only.",
 "every object graph without sharing cycles and every mutation history","aliasing bugs need arbitrary later mutations",["clone.go:DeepCopy","clone.go:Copy"])
p("C23","Projection copies",
 "CopyIncludes(ks)/CopyExcludes(ks) return exactly the members whose key is/is not among ks, with unchanged values, leaving the receiver unchanged.",
 "every dict and key list","all inputs",["clone.go:CopyIncludes","clone.go:CopyExcludes"])
p("C24","Query string round trip",
 "ParseQueryString(d.QueryString()) returns d with every scalar turned into its text (d itself if all leaves are strings), for every dict d whose member names contain no dot, are not empty at the top level, are not integers in a non-canonical spelling, and whose nested containers are not empty, have no member named 0, and are arrays only if no element is shallower than an earlier one; arbitrary bytes in keys and values survive the URL escaping (letters, digits and -_.~ as they are, a blank as +, the rest as %XX); a key given several times becomes the array of its values. For every dict without exception, QueryString writes one part per leaf, in order, path=text with both escaped (just the one that is not empty if the other is), and an empty part per empty container or reference; every other value has the empty query string. FALSE without these limits: e.g. for {a:[s,{x:1},t]} the last element is lost without any error.",
 "every such dict","unbounded nesting and all byte strings",["querystring.go:_queryString","querystring.go:parseQueryString","querystring.go:addQueryStringSeg"])
p("C25","Query parsing does not depend on map order",
 "The result of ParseQueryString is a function of the decoded multi-map only: Go's random map iteration order cannot influence it.",
 "every query string and every iteration order of the decoded map","the runtime picks one of n! orders",["querystring.go:parseQueryString","stringsegment.go:Less"])
p("C26","Segment order is a strict total order",
 "The ordering used to sort query keys is irreflexive, transitive and total up to equal segment lists, numbers come before texts, numbers compare numerically, shorter paths first; splitting then joining a key restores it iff no segment is a non-canonical integer.",
 "every pair/triple of keys","sort correctness needs the order laws for all inputs",["stringsegment.go:compare","stringsegment.go:Less","stringsegment.go:string2Segments","stringsegment.go:segments2string"])
p("C27","Scalar conversions agree",
 "Int/Float/Bool/GetString: the string form of an int64 converts back to it through JSONString.Int; JSONString.Int/Float fail rather than return a wrong number; Bool accepts exactly the case-insensitive true/on/yes/1 and false/off/no/0; wrong-type access fails with an error and extra keys on scalars are rejected. FALSE for dicts: Int/Float/Bool of a dict (without keys, or along a path that leads to a dict) recurse forever.",
 "every int64, string, value and key list","2^64 integers, all strings",["access.go:Int","access.go:Float","access.go:Bool","access.go:GetString"])
p("C28","Error reporting never fails",
 "Building a JSONError from any input and any position (negative or past the end) never indexes out of range; the reported position is clamped into the input, and the excerpt is the up-to-10 bytes on either side with a caret at the position.",
 "every byte string and every int position","all positions and sizes",["errors.go:NewJSONError"])
p("C29","Marshal/Unmarshal round trip",
 "Unmarshalling Marshal(v) or MarshalAll(v) into a new variable of v's type succeeds, makes the variable hold the same value (whatever pointers one follows, cycles included) and changes nothing else, for every type built from booleans, integers of all widths, floats, strings, tristates, times, JSON objects, slices, arrays, string-keyed maps, pointers, structs, types with MarshalJSON and UnmarshalJSON methods (UnmarshalJSON is then called with the text of what MarshalJSON gave, if that is not null; for *time.Time: with a text it accepts) and serializable interfaces (those with a registered factory, holding a pointer to a struct of the type that the factory makes, or nil), with distinct field names and without ignore or deprecated-by tags, where fields with the string option hold single values whose text means them (see C68); provided that no pointer leads to a nil, Marshal leaves out only zero values of fields, the result is not a bare number or boolean, and its references come after their nodes (always so without cycles, or if pointers lead to structs and maps and fields are declared in the order of their names). FALSE beyond these limits: a bare number comes back as zero, a reference before its node makes Unmarshal panic, a pointer to nil comes back as nil, an empty slice in an omitempty field comes back as nil.",
 "every such type, every finite pointer graph of such values, every memory","types and values are unbounded",["marshal.go:MarshalAll","unmarshal.go:unmarshalValue"])
p("C30","Marshal omission rules",
 "MarshalAll emits every non-ignored, non-deprecated field of a struct; Marshal drops a field exactly when the field's value is nil, or is empty/zero/false and the field carries the matching omit flag; map and slice elements are dropped only when nil; nothing else differs between the two.",
 "every struct value and tag combination","all value/tag combinations at all depths",["marshal.go:Marshal","marshal.go:MarshalAll","marshal.go:struct2JSONPairs"])
p("C31","Marshal terminates on cyclic object graphs and its references resolve",
 "Marshalling any finite object graph whose cycles go through pointers, shared or not, terminates (a map or slice that contains itself without one: C56); every reference <n> in the output to a struct/map object has exactly one dict in the output carrying node id n, node ids are positive and never reused, dicts start before the references to them if fields are declared in the order of their names, and a graph without cycles has no references at all. Limits, beyond which the claim about references is FALSE: pointers lead to structs and maps only, fields with the string option hold neither those nor slices, no deprecated-by tags, JSON values held in the graph have no references of their own.",
 "every finite pointer graph","cycles and sharing patterns are unbounded",["marshal.go:marshalValueWithObjectMap","json_pointer_trace.go:find","jsonpointer.go:setAllNodeId"])
p("C32","Deprecated-field resolution",
 "Marshal emits, under each deprecated name, the value of the non-deprecated field its chain of deprecated-by tags leads to, and nothing if the chain comes back to its start; it terminates if no chain enters a cycle that does not contain its start, and if one does, Marshal never returns (so termination for every assignment of tags is FALSE).",
 "every deprecated-by tag assignment","non-termination cannot be observed by a finite test; tag graphs are unbounded",["marshal.go:struct2JSONPairs"])
p("C33","Node references are restored in any order",
 "When unmarshalling, every variable that a reference <n> is read into ends up pointing to the variable that node n is read into - the last one before the reference or else the first one after it - and keeps its value if there is none; other variables are not changed by definitions and references; no panic comes from references exactly if the type of each such variable fits its node. For the fields of a struct, references to nodes that are read by value work in every order. FALSE: a reference before its node where both are read into pointers *T panics; a reference inside a map value to a later node is lost without an error.",
 "every interleaving of node definitions and references","all orders of visits",["unmarshal_session.go:saveNodeValue","unmarshal_session.go:setPointerValue"])
p("C34","Unmarshal fails with errors, not panics, but for listed combinations",
 "Unmarshalling a JSON value, whose references (if any) all lead out of it, into any settable target ends with nil or an error and leaves well-typed memory, unless the target has interfaces with methods, or has unsigned integers and the value has booleans or fractions. The excluded cases are real (so panic-freedom for every combination is FALSE): a boolean or float into an unsigned integer panics, and so does any scalar into an interface with methods.",
 "every value and target type","all value/type combinations",["unmarshal.go:_unmarshalValue"])
p("C35","Currency normalisation",
 "US style amounts lose exactly their commas; EU style amounts lose the dots before the comma and the comma becomes the decimal point; every other string is unchanged; plain integers are never altered.",
 "every string","all strings",["currency.go:normalizeCurrencyString"])
p("C36","Zero tests and native conversion",
 "IsZero holds exactly for null, false, 0, +/-0.0, empty string, empty dict, empty array and references that are not linked; Interface() keeps the content of values without references, so MarshalAll of the native value gives the original JSON and Marshal gives it without nulls (floats as float64; node ids are gone, a reference that is not linked becomes nil).",
 "every JSON value","unbounded values",["iszero.go:IsZero","interface.go:Interface"])
p("C37","Query helper functions",
 "GetArrayOfPrefix returns the maximal run of non-null members prefix.0, prefix.1, ...; GetQueryStringArray the list under a key in any of its three encodings; CheckRequiredFields succeeds iff all fields exist and are not null; GetAnyString returns the first non-empty string in key order; they all terminate.",
 "every dict, prefix, key list","unbounded numbers of members",["utils.go:GetArrayOfPrefix","utils.go:GetQueryStringArray","utils.go:CheckRequiredFields","utils.go:GetAnyString2"])
p("C38","Integer text is exact",
 "Every int64 (including both extremes) prints as its decimal text, and parsing a decimal text yields exactly that integer when it fits in int64 and never a wrapped value otherwise.",
 "all int64 values and all digit strings","2^64 values, unbounded digit strings",["string.go:String","jsonutils.go:parseJSONValue","access.go:Int"])
p("C39","Float text is exact",
 "Every finite float64 prints to a decimal text which parses back to the identical float64 (for the 64-bit form). The text (also the 32-bit form, for float32) is the shortest: no decimal number that would be read as the same float has fewer digits or a greater exponent, and none with the same exponent is nearer.",
 "all finite float64 values","2^64 bit patterns",["string.go:String","access.go:Float"])
p("C40","Unmarshal into a struct touches only named fields and does not stop at errors",
 "Fields of the target whose names do not occur in the dict (and are not reached by a deprecated-by chain) keep their value; a failing field neither prevents the others from being set nor is its error lost.",
 "every dict and struct","all field/member combinations",["unmarshal.go:unmarshalStruct","unmarshal.go:setStructFieldAt"])
p("C41","YAML conversion keeps content",
 "ParseYAML(v.YAMLString()) has the same content as v for plain JSON trees, provided that the YAML library keeps the meaning of the JSON text it is given; ParseYAML fails exactly if the library or Parse fails; a reference is not converted (YAMLString gives its plain text).",
 "every JSON value","delegates to a third-party YAML library",["yamlutils.go:ParseYAML","yamlutils.go:YAMLString"])
p("C42","Time strings",
 "NewTimeString(t) is the text YYYY-MM-DDThh:mm:ssZ that means the second t falls in, in UTC, for the years 0000 to 9999 (FALSE beyond: there the year has more digits or a minus sign, and the text still determines the second); these texts sort as strings exactly like the times; NewTimeString(t).GetTime() returns t truncated to seconds; GetTime takes the first of its five parsers that accepts the text, and on a dict follows the keys to a string.",
 "every time instant","delegates to the Go time package",["utils.go:NewTimeString","access.go:GetTime"])
p("C43","Unmarshal converts scalars by one fixed table",
 "What Unmarshal writes for a number, boolean or string depends only on the value and the target's type: integers keep the low bits that fit, fractions are truncated, numbers and booleans become text (six decimals), strings are read as numbers after removing currency signs, null sets the zero value; pointers are followed or made; a combination that does not fit gives an error and writes nothing. Oddities of the code that the table shows: booleans and fractions panic on unsigned targets, an empty string leaves a number unchanged, a number or boolean by itself (no keys) sets the target to zero, a string sets the first element of a slice, *time.Time and time.Time read strings differently.",
 "every scalar, target type, memory and key path","all value/type combinations and all numbers",["unmarshal.go:_unmarshalValue","unmarshal.go:jsonUnmarshal","std_json.go:tryStdUnmarshal"])
p("C44","Unmarshal of arrays and dicts goes element by element",
 "An array is unmarshalled into a slice or Go array element by element, stopping at the first error; a slice with enough capacity keeps its element variables (old contents are overwritten in place, not zeroed), otherwise it is replaced by a new one; Go arrays must have the same length. A dict is merged into a map: every member is unmarshalled into a new zero variable whose copy becomes the element, other elements stay. Strings receive the JSON text, JSON variables the value; interface{} receives the element list of an array, while a dict for interface{} is an error; pointers to slices, arrays, structs and maps are followed, other pointers are an error.",
 "every array, dict, target, memory and key path","containers of any size and every prior content of the target",["unmarshal.go:_unmarshalValue","unmarshal.go:unmarshalMap","std_json.go:indirectStdUnmarshaler"])
p("C45","Constructors and plain accessors agree",
 "NewDict holds for every key the last value given for it and nothing else, in key order and without node id (so the order of pairs with distinct keys does not matter); NewArray holds its arguments in order; Value, Length and Size agree with the contents; scalars give back what they were made of (a float32 the float64 it widens to); a string array gives back its strings, also after printing and parsing, whatever bytes they contain; GetStringArray gives the texts of the elements; QueryBoolean gives the default exactly if the key is missing.",
 "every list of pairs, values or byte strings","all lists, all byte strings, all keys",["access.go:NewDict","access.go:NewArray","utils.go:NewStringArray","utils.go:GetStringArray","querystring.go:QueryBoolean","values.go","length.go","size.go"])
p("C46","JSONDeserialize",
 "JSONDeserialize gives a JSONObject as parsed, a *JSONDict with the members of the parsed dict but no node id, a *JSONArray with the elements of the parsed array; what a dict or array prints comes back; a text that is a dict, array or string of the wrong kind is an error, and every parse error is passed on. A number, boolean, null or reference, on the other hand, is accepted as an empty dict or array.",
 "every text and every printable dict or array","all texts",["reflect.go:JSONDeserialize","reflect.go:init","unmarshal.go:Unmarshal"])
p("C47","Unmarshalling into JSON-typed variables: identity and sharing",
 "Unmarshal into a JSONObject, *JSONDict, *JSONArray, *JSONString, *JSONInt, *JSONFloat or *JSONBool variable: a value of the type of the variable is not copied, the variable refers to the very object; null makes it nil; an error changes no object; at most the one object that the variable referred to before may change, and exactly if a number or boolean goes into a *JSONString, a float into a *JSONInt or a string into a *JSONBool; arrays and dicts never change; variables always refer to nil or an object of their type. The one object that does change may be part of an earlier document, or the JSONTrue that all documents share.",
 "every heap of objects and every history of calls","sharing between documents over any history",["unmarshal.go:JSONInt._unmarshalValue","unmarshal.go:JSONString._unmarshalValue","unmarshal.go:JSONDict._unmarshalValue","std_json.go:indirectStdUnmarshaler"])
p("C50","Values with linked references behave like the graph they stand for, step by step","In the result of Marshal every reference <n> is linked to the one dict of the result whose node id is n (for the graphs of C31). Getting one key at a time goes through references as if the dicts stood in their place, and finds exactly what is on that path of the unfolded tree. Interface() gives the unfolded tree when that is finite, and returns in no other case. Equals always returns, also on cycles, and compares the unfolded receiver with the argument. Not so: a path of several keys does not pass a reference, GetMap(k) fails on one, a value with a reference inside is never Equal to itself, Interface() of a cycle never returns.","all values with references, all assignments of dicts to references (cyclic too), all keys","a test has a few graphs; the claim ranges over all graphs and, for the cyclic ones, over all depths of unfolding",["jsonpointer.go: getNode, Get, GetMap, GetString, Equals, Interface, setJsonObject","equals.go","interface.go","access.go"])
p("C49","A Go value survives being stored as text","Marshal a value, write the result with String, parse that text and Unmarshal what was parsed into a new variable of the same type: the text is accepted to its last byte, Unmarshal succeeds, the variable holds the same value (following any number of pointers, also on cycles) and no other memory changes. This is so for the values of C29 in which floats are float64 and not -0, JSON objects and what MarshalJSON gives come back from text exactly, and no field or map key has the reserved name. Not so: a float32 may come back as a neighbouring float32, -0.0 comes back as 0.0, and a map loses a member with the reserved key; all three come back when no text is in between.","all values of all restorable types in all memories, cyclic ones included; all float64 values; all memories to restore into","it is a statement about every value of every type and every float64, through printer, parser and both reflection walks together",["marshal.go","unmarshal.go","jsonutils.go: Parse","string.go: String","jsonpointer.go"])
p("C48","Update changes exactly the fields that the source carries","Update(&dst, src), with src a struct (behind any pointers and interfaces) of booleans, numbers, strings, tristates, times or pointers to these (other than to times, which Marshal hands to their MarshalJSON), and dst a struct: it succeeds; every field that src has and Marshal does not leave out (nil pointers; zero, false and empty values with omit tags) arrives in the field of dst of that name with the same value (with the string option if its text stands for it, see C68); every other variable is unchanged; a second Update changes nothing. For all types and tags: what dst reaches only through fields that src does not name is not touched, even when Update fails. Not so: Update(&i, 5) of a bare number or boolean returns nil and sets i to 0; a map in dst is merged with the source, never shrunk.","all source structs and stores, all destination structs and memories, all dictionary orders","the frame condition ranges over all memories and all pairs of struct types",["update.go: Update","marshal.go","unmarshal.go","fieldmap lookup of gotools (parameter)"])
p("C51","Goroutines that only read shared documents do not disturb each other","Goroutines run clients that read shared JSON objects (they look at objects and call String on floats, directly or through String of a document); under every schedule: a goroutine that has returned has returned what it returns when it runs alone; each finishes after a bounded number of its own steps, whatever the others do; String calls never panic and give the text of the document; the documents are unchanged. If every float has a width (NewFloat, Marshal) no goroutine ever writes. Not so: String of a float made by the parser writes the private width field, so two goroutines that print the same parsed document have a data race in the sense of the Go memory model (results are right on sequentially consistent memory).","all heaps, all reading clients, any number of goroutines, all schedules at the granularity of single memory accesses","schedules cannot be enumerated by tests; the racy write happens once per float",["string.go: JSONFloat.String","write.go","access.go: GetString"])
p("C52","Values are objects: a change to one is seen by everything that contains it, and by nothing else",
"Set, Remove, RemoveIgnoreCase, Update, UpdateDefault and Add on a dict, Add and SetAt on an array, change the receiver in place. The receiver afterwards holds exactly the value the operation specifies (C14-C19); every value that contains the receiver, at any depth and by any route, shows the new content in every place where it contains it and is otherwise unchanged; values that do not contain it are unchanged. Get, GetIgnoreCases and GetAt hand out the contained object itself. Add with a path of keys, in a document whose dicts on the way are not shared, changes one object and gives the same result and error as the value-level specification. An object put into itself stands for no value any more; a null that is not the JSONNull pointer (DeepCopy makes such) stops Add with ErrInvalidJsonDict and nothing changes.",
"all heaps of objects with any sharing, all receivers, values, keys and paths; all documents that contain the receiver; both answers Go may give for the comparison of null pointers",
"A test builds a few object graphs; that nothing else changes is a statement about every other object reachable in every possible sharing pattern.",
["access.go: JSONDict.Set, Remove, RemoveIgnoreCase, Add, Get, GetIgnoreCases, JSONArray.Add, SetAt, GetAt","dict.go: Update, UpdateDefault","clone.go: DeepCopy"])
p("C53","AfterUnmarshal methods: which run, on what, in which order",
"When Unmarshal has read a dict into a struct variable, it calls AfterUnmarshal of every struct embedded in it that has the method (its own or promoted by Go's rules) and then of the struct itself: embedded before embedding, fields in order, the receiver being that very part; the struct's methods run after all its members were handled, also when some failed, and nothing is changed after the outermost ones. A dict leads to at most one such round (without deprecated-by tags), other JSON values to none. Methods that change nothing leave every other property of Unmarshal as it is. Not so: once only - a struct that inherits the method runs it twice on the same receiver, exactly once for each struct around it that has it as its method; never panics - it does exactly if a selected method belongs to a struct in an unexported embedded field or lies behind a nil embedded pointer; always ends - not if a struct embeds a pointer to itself; sees everything - a reference to a later node is still nil in an inner struct's method; and the receiver of a map value is a temporary variable.",
"all struct types with any embedding, all variables of them (nil, shared, cyclic pointers), all documents, all methods",
"A test fixes one embedding shape and one document; the order, the number of calls and the absence of panics depend on every combination of embedding, promotion and nil pointers.",
["unmarshal.go: unmarshalStruct, callStructAfterUnmarshal, unmarshalMap"])
p("C54","Parse accepts exactly one, lenient, unambiguous language",
"Parse returns a value, having consumed n bytes, for exactly these texts: white space, then a value, then anything (a delimiter, if the value is a word without quotes). A value is a string in single or double quotes with escapes; a word without delimiters, read as a reference, null/none, true/yes, false/no in any case, a 64-bit integer, a float in Go's syntax, or else a string; an array or dict with optional white space and an optional comma in front of the closing bracket; names are quoted or words, possibly empty; only the outermost string or container may be cut off by the end of the input, at a place where an element could start; the last of several members with one name counts; no node id occurs twice. The text determines value and length. Every other text gives an error or a panic. ParseStream does the same from its offset.",
"all byte strings, all values, all offsets, both directions (what is accepted and what is refused)",
"Tests sample texts; that no further text is accepted, and that each accepted text has the one stated meaning, ranges over all byte strings and nesting depths.",
["jsonutils.go: Parse, ParseStream, parseJSONValue, parseString, parseQuoteString, parseDict, parseArray","parse_session.go: saveNode"])
p("C55","Which texts Parse refuses, with which error, where, and which make it panic",
"Parse(s) returns error e at position n for exactly the texts that a grammar of wrong texts, written without reference to the parser, gives with e and n: nothing but white space; a wrong or cut escape in a string; <...> without an integer; the end of the input where a member, a colon, a value, a comma or a closing bracket is due; a character other than comma or closing bracket behind a value; a missing colon behind a name. It panics for exactly the texts in which a value is missing in front of : , } or ], the reserved name has a value that is no integer, or a positive node id appears twice. Every text is either accepted (C54) or refused, never both, and for one reason. The error for a blank text is given for blank texts only, and 'truncated' only at the end of the input.",
"every byte string, every error and position; every prefix and offset for ParseStream",
"Error paths depend on position, nesting, what was read before and what follows; there are infinitely many wrong texts of each kind and tests look at a handful",
["jsonutils.go:Parse","jsonutils.go:ParseStream","jsonutils.go:parseDict","jsonutils.go:parseArray","jsonutils.go:parseQuoteString","jsonutils.go:parseJSONValue","parse_session.go:saveNode"])
p("C56","When Marshal panics, never ends, or returns",
"Marshal and MarshalAll return for an object graph exactly if nothing that they visit in it (fields that are ignored or deprecated are not visited; pointers, maps, slices, arrays, interfaces and other fields are followed) is a value they cannot handle or never get done with. They panic only if something visited is a boolean of a type with a name (type Flag bool), or has a MarshalJSON method that returns an error or a text that Parse does not accept; and if nothing visited contains itself without a pointer in between (m[\"me\"] = m) and no struct has a trapped chain of deprecated-by tags, they do panic whenever such a value is visited. If there is no such value but one that contains itself or has a trapped chain, they never end: 'Marshal terminates on every finite graph' is FALSE without these limits. What they return is what C30 to C33 describe.",
"every object graph, including maps and slices that are shared or contain themselves, and every outcome of MarshalJSON methods",
"Which value makes the recursion stop or run away may be anywhere in a graph of any shape and be reached by any path, and non-termination is not observable by a test at all",
["marshal.go:Marshal","marshal.go:MarshalAll","marshal.go:marshalValue","marshal.go:marshalMap","marshal.go:marshalSlice","marshal.go:marshalStruct","std_json.go:tryStdMarshal"])
p("C57","What Unmarshal does with a target that is not a pointer, or is nil",
"Unmarshal(x) checks neither that x is a pointer nor that it is non-nil. If the document (or what the keys select) is null, or the receiver is a number or boolean by itself, it returns nil and changes nothing, whatever x is; keys that lead nowhere give the same error as they do with a pointer. Into nil or a nil pointer everything else panics. Into a value passed by itself: where there is nothing to set or the types do not fit, it returns nil or the same error as for a pointer, and nothing has changed; where the value itself would have to be set - any number, boolean or string that fits, a dict into a struct (even {}), a dict into a nil map, an array into a slice of another length, anything into a nil pointer in it - it panics. A map that is not nil takes a dict, a slice takes an array of exactly its length (or a string, if its length is 1), exactly as through a pointer to it; an array goes element by element, and pointers in it are followed. Whatever it returns, of the caller's variables only those that the slices, maps and pointers in the value lead to have changed.",
"every document, selection by keys, memory, and every value passed by itself: every type; references in the document lead out of what is selected (for the last sentence: there are none)",
"a missing & is an everyday mistake, and whether it shows as an error, a panic or not at all depends on the kinds of both the JSON value and the Go value and on lengths and nilness of the latter",
["unmarshal.go:jsonUnmarshal","unmarshal.go:unmarshalValue","std_json.go:indirectStdUnmarshaler","unmarshal.go:callStructAfterUnmarshal"])
p("C58","Unmarshalling a part of a document, and references that lead out of it",
"doc.Unmarshal(&x, keys...) does what doc.Get(keys...) and then Unmarshal(&x) does if the keys select a dict, an array, a string or null, and the keys can be given in two parts (the same errors included). Not so for numbers and booleans: unmarshalling one by itself zeroes x without an error. Keys that select a reference leave x as it is, with nil, whereas Get and then Unmarshal of a linked reference unmarshals the dict it stands for (one that is not linked zeroes x). A struct member that is a reference to a dict outside of what is unmarshalled (for instance the dict around it) is passed over as if it were not there: no error, nothing set.",
"every document, key path, target, memory and assignment of dicts to references","all key paths, all reference structures and all positions of the member",["unmarshal.go:jsonUnmarshal","jsonpointer.go:Unmarshal","jsonpointer.go:unmarshalValue","unmarshal_session.go:setPointerValue"])
p("C59","What Unmarshal does depends on the document and the target's contents alone","Unmarshal into two variables of the same type with the same contents - wherever they are, whatever other variables there are, and including what their pointers, slices and maps lead to, with the same sharing - has the same outcome for the same document and keys: both return nil, both return the same error, or both panic; and afterwards the two targets again have the same contents and sharing. In particular two new variables of one type always get the same; variables that the target does not lead to make no difference; and of two calls whose targets lead to no common variable each has the outcome it would have if the other had not happened.","every document, list of keys, type, two memories and two targets with corresponding contents","relates two runs over arbitrary memories; a test compares two runs on chosen ones",["unmarshal.go: jsonUnmarshal, unmarshalValue, setStructFieldAt","unmarshal_session.go: saveNodeValue, setPointerValue","std_json.go: indirectStdUnmarshaler"])
p("C60", "Embedded struct pointers are made on demand", "Unmarshal of a dict into a struct with embedded struct pointers that are nil gives the fields that come through them the values, and returns the error, that a struct having these fields itself would get. A nil pointer is set to a struct holding those values exactly if some member of the document is for one of its fields (by name or through deprecated-by); it stays nil otherwise, also when other members fail. A member whose first field comes through the pointer sets it even if its value is null or does not fit. A pointer that is not nil is never replaced.", "all structs with any number of embedded pointers, all documents, all prior contents, all outcomes", "which pointers are set depends on every combination of member names, field names, deprecated-by chains and errors", ["unmarshal.go:577-612 setStructFieldAt", "unmarshal.go:614-633 unmarshalStruct"])
p("C61","Maps with keys of any type",
  "Marshal of a Go map gives a dict with one member for each entry, named by fmt's \"%s\" of the key (a string is itself, the integer 3 is \"%!s(int=3)\"), that represents the entry's value, and no others (nil values are left out by Marshal but not by MarshalAll). Where the data has no cycles and the names of each map differ, the result does not depend on the order in which Go visits the maps, wherever they are: marshalling twice gives the same. Integers of one type always have different names, so do booleans and strings. With string keys there is only one order anyway. Not so otherwise: two integer keys whose values lie on cycles may get their node ids in either order, and of entries whose names are equal one is lost, and either may be.",
  "every map with string, integer, boolean or other keys, every value and every acyclic store under it, every order of visiting every map, every choice of node ids",
  "Go visits maps in random order: a test sees one order of one map",
  ["marshal.go: marshalMap","marshal.go: tMapKeys","marshal.go: Marshal","marshal.go: MarshalAll"])
p("C62","Objects that contain nil or themselves",
  "Objects built with Set, Add and SetAt may hold nil members or elements, and may contain themselves. String(), PrettyString(), Interface() and (of a dict) QueryString() look at everything inside: they return for just those objects that stand for a value - no nil and no cycle anywhere inside - and then give what they give for that value; a panic always comes from a nil inside, a call that never returns from an object that contains itself, and a nil inside is enough for a panic if nothing inside contains itself. Equals gives the equality of the values when both stand for values, is true only then, panics only if there is a nil inside one of the two, and does not return only if both contain cycles; it is not symmetric on objects with nil elements. Get of a nil member panics, GetAt of a nil element returns nil without an error. DeepCopy turns every unresolved reference into nil, so that the copy of a container with a reference inside can no longer be printed.",
  "all heaps of objects (with sharing, nil and cycles) and all objects in them, all numbers of nested calls, all iteration orders in DeepCopy",
  "which objects contain a nil or a cycle somewhere is a property of graphs of any size; that a call does not return cannot be tested at all",
  ["write.go: buildString","jsonutils.go: prettyString","interface.go: Interface","querystring.go: _queryString","equals.go: Equals","clone.go: DeepCopy","access.go: Get, GetAt"])
p("C63","What ParseQueryString makes of any query string",
  "A text is accepted as a query exactly if its parts between the & are empty or key[=value] without ; and with well-formed %XX escapes (+ is a blank); it then means one list of keys and values, and otherwise ParseQueryString reports a syntax error. With such a meaning it fails only for a key with an integer in an unusual spelling whose usual spelling is not given and which is entered first among the keys with the same first part, always with the same error; so it succeeds whenever all integers are spelled as usual. Everything in the result comes from the query: the strings are values that were given, the rest are arrays and dicts. A key without dots is found with its value, or with the array of its values (which only longer keys can continue), whatever else the query contains. If no part of a key but the first is 0 and no repeated key is continued by a number, the result is exactly the nested dict of the keys: Get along the parts of a key gives its value, or the array of its values, unless a key for the beginning of its path is given too, and there is nothing else in it.",
  "all texts",
  "the meaning of a query depends on all keys together: which ones are prefixes of others, how often they are given and in which order they are sorted",
  ["querystring.go: ParseQueryString, addQueryStringSeg","stringsegment.go"])
p("C64","JSON values given to Marshal are returned as they are, except null",
"Marshal and MarshalAll of a JSON object (a *JSONDict, *JSONArray, *JSONString, *JSONInt, *JSONFloat or *JSONBool, or such a value not behind a pointer) return that value, whatever it contains. A []JSONObject becomes the array of its elements and a map[string]JSONObject the dict of its members, in order, without change; Marshal leaves nil elements out, MarshalAll gives null for them. A []interface{} and a map[string]interface{} of JSON objects do the same. Not so: JSONNull given to Marshal, or held by an interface{} in a slice or map, comes out as an empty dict; hence Marshal(Marshal(nil)) is {} and not null. JSONNull as an element of a []JSONObject stays null.",
"all JSON values, all slices and maps of them, all stores, both Marshal and MarshalAll, all map orders of the node table",
"A test tries a few values; that the value is passed through unchanged is a statement about all JSON values at all nesting depths.",
["marshal.go: _marshalValue, marshalSlice, marshalMap, Marshal, MarshalAll","jsonutils.go: JSONValue, JSONNull"])
p("C65","What Marshal returns depends on the contents of its argument alone",
"Two Go values with the same contents, where pointers lead to variables with the same contents and what is shared in one is shared in the other, have the same result under Marshal and under MarshalAll, wherever the variables are: the same JSON value including node ids and references, and one call ends if and only if the other does. Variables that the argument does not lead to make no difference. If nothing contains itself, sharing makes no difference either: a graph in which several pointers lead to one variable gives the same JSON as its copy in which each has its own variable. Not so with cycles: a ring of one node and a ring of two equal nodes have different JSON.",
"all pairs of object graphs (shared, cyclic, in any memory) and all correspondences between them, all choices of node ids, both Marshal and MarshalAll",
"Addresses and sharing patterns are not under a test's control; the claim compares two executions over every pair of corresponding memories.",
["marshal.go: Marshal, MarshalAll, marshalValueWithObjectMap","marshal_session.go","json_pointer_trace.go: find, push, pop","jsonpointer.go: newJsonPointer, setAllNodeId"])
p("C66","CheckRequiredFields and GetArrayOfPrefix recognise null by identity",
"CheckRequiredFields of a dict returns nil if and only if every listed field is a member and none of them is the object JSONNull; GetArrayOfPrefix hands out the member objects prefix.0, prefix.1, ... up to the first key that is missing or whose member is the object JSONNull. In a document whose nulls are all that object, as the parser and Marshal make them, both do what C37 says of the values. In a DeepCopy of it, where nulls are other objects, CheckRequiredFields only asks for the keys and accepts null members, and GetArrayOfPrefix goes on past nulls to the first missing key. With a nil among the members CheckRequiredFields panics whatever the fields are, and GetArrayOfPrefix exactly if a nil comes before the first missing key or JSONNull. Of anything but a dict GetArrayOfPrefix gives no objects.",
"all object graphs that hold a dict, all lists of fields, all prefixes, all outcomes of the comparison of pointers to empty structs, all orders of map iteration in the copy",
"Whether two pointers to empty structs are equal is left open by the Go specification; tests see one outcome and one document.",
["utils.go: CheckRequiredFields, GetArrayOfPrefix","clone.go: DeepCopy","jsonutils.go: JSONNull"])
p("C67","Dicts into serializable interfaces",
"Unmarshal of a dict into a variable whose type is an interface with the methods of gotypes.ISerializable makes a new object of the type that is registered for the interface, with the zero value, reads the dict into it as into any variable of that type, and then sets the interface to a pointer to the new object. The object that the interface held before is replaced and not merged with: what the interface held makes no difference to the outcome, and no variable that there was before is changed but the interface itself (a pointer to a struct, in contrast, keeps pointing to the same struct and the dict is read into that). If the dict does not fit, the error is returned and the interface keeps what it held. If no factory is registered for the interface an error is returned and nothing is changed; if the factory makes nothing it panics. Null makes the interface nil. A scalar or an array panics.",
"Every document, key path, memory and previous content of the variable, every struct type made by the factory, nodes and references in the document included.",
"The claim is about what no document can do to the objects that were there before, and compares the outcome for all previous contents.",
["unmarshal.go: JSONDict._unmarshalValue (506-531)","unmarshal.go: JSONDict.unmarshalValue","unmarshal_session.go: saveNodeValue"])
p("C68","Fields with the string option",
  "A struct field with the string option (json:\",string\") that holds an integer, a float, a boolean or a string is marshalled as a JSON string: the decimal numeral of the integer as an int64 of the same bits, the float rounded to six decimals, true or false, the string itself. Unmarshalling the result into a variable of the same struct type gives back every such value, except: unsigned integers from 2^63 on (their text is negative and reading it is an error), floats that are not multiples of 10^-6 (what arrives is the float64 nearest to the value with six decimals, so everything below 5*10^-7 arrives as zero), and booleans where utils.ToBool does not know the word. Composite fields with the option do not come back: a struct is an error, a []string becomes a slice with the whole JSON text as its only element.",
  "all structs of scalar fields with any mixture of options, all values, all initial contents of the variable",
  "The text of a number depends on its value over the full range of int64, uint64 and float64; tests sample a few values and the exceptions are at the edges (2^63, 10^-6).",
  ["marshal.go:marshalInt64","marshal.go:marshalFloat64","marshal.go:marshalBoolean","marshal.go:marshalStruct","unmarshal.go:JSONString._unmarshalValue"])
p("C69","A type's own MarshalJSON and UnmarshalJSON decide",
  "Marshal and MarshalAll give, for a value whose type has a MarshalJSON method, exactly what that method's text parses to - in a struct field too, whatever its tag says (no omitempty, omitzero, omitfalse or string option drops or changes it). Unmarshal of any value other than null into a variable whose type has UnmarshalJSON, or into a pointer (or pointer to pointer ...) to such a type, calls the method once with exactly the value's text, for the very variable the pointers lead to; nil pointers on the way are made to point to new zero values, nothing else in memory changes, an error of the method is the error of Unmarshal (under the member's name, in a struct), and then the variable is as the method left it. null never reaches the method: the variable or pointer gets its zero value. A string for a time.Time held by value is read by the library's time parser instead, while one for a *time.Time goes to UnmarshalJSON.",
  "all values, all types with such methods and any number of pointers to them, any well-typed memory (nil or set pointers, shared or cyclic), any field tags",
  "Which variable the method is called for depends on the number of pointers and on which of them are nil; tests try a few shapes.",
  ["std_json.go:tryStdUnmarshal","std_json.go:indirectStdUnmarshaler","std_json.go:tryStdMarshal","std_json.go:indirectStdMarshaler","unmarshal.go:unmarshalValue"])
p("C70","UTF-8 in, UTF-8 out",
  "Parsing a text that is well-formed UTF-8 and has no escape \\x80 to \\xff gives only strings and member names that are well-formed UTF-8, however the text is nested, quoted, escaped (also with unpaired or mispaired surrogates) or cut into unquoted words. The texts of String() and PrettyString() are well-formed UTF-8 exactly if every string and member name in the value is; String() writes no \\x escape, so documents can be read and written any number of times without leaving UTF-8. The query string of any value is plain ASCII. (An escape such as \\xff does put a single byte into the string, so the condition on the text is needed.)",
  "all texts, and all values whatever bytes their strings hold",
  "An unquoted word, an escape or a surrogate pair can end at any byte of any text; tests try a few.",
  ["jsonutils.go:parseString","jsonutils.go:parseQuoteString","jsonutils.go:quoteString","jsonutils.go:jsonPrettyString","querystring.go:simpleQueryString"])
p("C71","Parsing does not amplify",
  "Whatever the text, the value Parse returns is no larger than what it read: the number of values in it plus the bytes of all its strings and member names is at most one more than the number of bytes read (so at most one more than the length of the text), and arrays and dicts are nested at most as deeply as there are opening brackets in the part that was read. For ParseJsonStreams the values together are no larger than the stream. String() of a string takes between 2 more bytes than it has and 6 times as many plus 2. (The text of a number may be much longer than the literal it was read from: 1e308 prints as 309 digits.)",
  "all texts, valid or not, complete or cut short, and all streams",
  "A text that makes a parser allocate more than its size (an entity or \\u bomb, members counted twice, an unquoted word read into two values) need not look like any of the tests.",
  ["jsonutils.go:ParseStream","jsonutils.go:parseArray","jsonutils.go:parseDict","jsonutils.go:parseString","jsonutils.go:ParseJsonStreams","jsonutils.go:quoteString"])
p("C72","A Go value survives being sent as a query string",
"Marshal a struct or a map with string keys (or a pointer to one), write the result with QueryString, read that with ParseQueryString and Unmarshal what was read into a new variable of the same type: both succeed, the variable holds the same value, whatever pointers one follows, and no other memory changes. This is so for the values of C29 without pointer cycles whose JSON has a form that a query string can carry (C24: no empty containers, no dotted or odd names, arrays whose elements get no shallower) and whose scalars are meant by their texts: booleans that utils.ToBool understands, signed integers, unsigned integers below 2^63, float64 whose text is not taken for an amount in European notation, strings, times, JSON objects that are strings. Not so: a uint64 from 2^63 on is sent as a negative number and refused; an empty non-nil slice comes back nil; a number in a JSONObject comes back as a string; with MarshalAll a nil pointer comes back as a pointer to zero.",
"all values of all restorable types in all acyclic memories; all memories to restore into",
"It is a statement about every value of every type through four recursive walks: marshalling, flattening into keys, rebuilding from sorted segments, and conversion of every scalar from text.",
["marshal.go: Marshal","querystring.go: QueryString, ParseQueryString","unmarshal.go: Unmarshal","currency.go"])
p("C73","Pointers held in interface{} variables are followed only to look for UnmarshalJSON",
"Let an interface{} variable x, into which Unmarshal reads, hold a pointer to a variable that is itself a pointer (x = &p). Unmarshal follows that pointer, further pointers, and further interface{} variables that hold such pointers. If the way ends at a variable whose type has UnmarshalJSON (time.Time too), UnmarshalJSON is called on it with the text of the JSON value, x is left alone, and nothing else changes; so too if x is itself a pointer variable. If it ends elsewhere, x is overwritten with what it would have got had it been nil, what the pointers lead to is not set, and a dict gives an error. A nil pointer on the way is made to point to a new zero variable, which stays so even if x is then overwritten. null only makes x nil. Unmarshal returns unless the way leads back to an interface{} variable it has come by, as with x = &p, p = &x for p of type *interface{}, and then it never returns. Where no interface{} variable holds a pointer to a pointer, and the document has no references, Unmarshal does what the other properties say.",
"all memories, with cycles through pointers and interface{} variables; all JSON values; ways of every length",
"The ways are unbounded chains through memory that can be cyclic; that a call never returns is not something a test can observe.",
["std_json.go: indirectStdUnmarshaler, tryStdUnmarshal","unmarshal.go: Unmarshal"])
with open('/verif/properties.jsonl','w') as f:
    for x in P: f.write(json.dumps(x,ensure_ascii=False)+"\n")
print(len(P))
