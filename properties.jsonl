{"id": "C01", "title": "Cursors over one stream are independent readers", "statement": "Whatever the interleaving of NewCursor, Clone, Detach and Next on the cursors of one CursorPool, every Next on a cursor returns exactly the token that an independent reader of the whole underlying stream at that cursor's position would return, clones start where their original stood, a detached cursor returns nil for ever, and no call panics.", "quantifier": "every finite token stream, every finite sequence of operations on any number of cursors (including sequences long enough to trigger any number of window trims)", "why_tests_cant": "The trimming logic depends on a counter, on the minimum over all cursors and on the history of detachments; only finitely many interleavings can be tried.", "anchors": ["token/cursor.go:CursorPool.AdvanceCursor", "token/cursor.go:CursorPool.advanceWindow", "token/cursor.go:CursorPool.DetachCursor", "token/cursor.go:CursorPool.CloneCursor", "token/cursor.go:NewCursorFromData"]}
{"id": "C02", "title": "The pool reads its source lazily and once", "statement": "A pool has taken from the underlying stream exactly the tokens up to the furthest position any cursor has reached: never one more, never the same one twice, and the tokens it buffers are exactly the contiguous segment between its window start and that position.", "quantifier": "every stream and every operation history", "why_tests_cant": "Requires an invariant over all histories.", "anchors": ["token/cursor.go:CursorPool.AdvanceCursor", "token/cursor.go:CursorPool.advanceWindow"]}
{"id": "C03", "title": "Buffered tokens behind the slowest cursor are bounded", "statement": "The number of tokens the pool keeps although every live cursor has already passed them stays below a fixed bound independent of the length of the stream (the documented constant memory usage).", "quantifier": "every stream and operation history", "why_tests_cant": "A leak shows only as unbounded growth over arbitrarily long histories.", "anchors": ["token/cursor.go:CursorPool.updateCatchupCount", "doc.go"]}
{"id": "C04", "title": "Scanner results do not depend on how the reader chunks its data", "statement": "For every way an io.Reader can cut the same bytes into chunks (including empty reads and data returned together with the final error), the scanner returns the same sequence of bytes, peeks, tokens, positions and EOF/error results for the same sequence of scanner calls, namely those of the plain byte sequence.", "quantifier": "all byte sequences, all chunkings, all buffer sizes >= 2, all legal sequences of scanner calls", "why_tests_cant": "Chunk boundaries can fall anywhere relative to tokens and to the refill logic; infinitely many combinations.", "anchors": ["internal/scanner/scanner.go:Scanner.fillBuf", "internal/scanner/scanner.go:Scanner.Read", "internal/scanner/scanner.go:Scanner.Back", "internal/scanner/scanner.go:Scanner.SkipSpaceAndPeek", "internal/scanner/scanner.go:Scanner.EndToken"]}
{"id": "C05", "title": "A recorded token is exactly the bytes read since StartToken", "statement": "EndToken returns exactly the bytes consumed between StartToken and EndToken, for tokens of any length, including tokens longer than the buffer and tokens spanning any number of refills.", "quantifier": "all byte sequences, all chunkings, all buffer sizes >= 2, all token lengths", "why_tests_cant": "Token lengths and refills are unbounded.", "anchors": ["internal/scanner/scanner.go:Scanner.StartToken", "internal/scanner/scanner.go:Scanner.EndToken", "internal/scanner/scanner.go:Scanner.fillBuf"]}
{"id": "C06", "title": "Reported line and column locate the current byte", "statement": "The position reported by the scanner has Line = number of newlines consumed and Col = number of characters consumed since the last newline.", "quantifier": "all UTF-8 inputs and all legal scanner call sequences", "why_tests_cant": "Positions depend on the whole history of reads, skips and backs.", "anchors": ["internal/scanner/scanner.go:Scanner.Read", "internal/scanner/scanner.go:Scanner.CurrentPos"]}
{"id": "C07", "title": "Every valid JSON text sequence is decoded to its token stream", "statement": "For every RFC 8259 value text, and any whitespace-separated sequence of them, the JSON decoder emits exactly the token stream of these values (start/end tokens properly nested, keys and scalars in order) and returns no error.", "quantifier": "all JSON values of any depth and size, all their textual representations (whitespace, number forms, escapes)", "why_tests_cant": "The grammar is infinite and recursive.", "anchors": ["encoding/json/decoder.go:Decoder.Produce", "encoding/json/decoder.go:Decoder.ParseValue", "encoding/json/decoder.go:ParseString", "encoding/json/decoder.go:ParseNumber"]}
{"id": "C08", "title": "The JSON decoder rejects everything that is not JSON", "statement": "If the JSON decoder returns no error then its input is a whitespace-separated sequence of RFC 8259 JSON values, and the tokens emitted are those of these values.", "quantifier": "all byte sequences", "why_tests_cant": "Needs to range over all malformed inputs.", "anchors": ["encoding/json/decoder.go:Decoder.Produce", "encoding/json/decoder.go:ParseString"]}
{"id": "C09", "title": "Scalars keep their literal spelling", "statement": "Each scalar token emitted by the JSON decoder carries, byte for byte, the literal found in the input (numbers are never re-formatted, strings never re-escaped).", "quantifier": "all inputs", "why_tests_cant": "Literals range over an infinite set.", "anchors": ["encoding/json/decoder.go:ParseString", "encoding/json/decoder.go:ParseNumber", "token/tokens.go:Scalar"]}
{"id": "C10", "title": "The tokens emitted before an error are a prefix of a well-formed stream", "statement": "Whatever the input, the tokens the JSON decoder emits, even when it ends with an error, are a prefix of the token stream of some sequence of JSON values; when there is no error they are complete.", "quantifier": "all byte sequences", "why_tests_cant": "Errors can occur at any point of any nesting.", "anchors": ["encoding/json/decoder.go:Decoder.Produce"]}
{"id": "C11", "title": "The decoder always terminates without panicking", "statement": "On every input the JSON decoder terminates and never panics (in particular every Back and every token recording is legal).", "quantifier": "all byte sequences and chunkings", "why_tests_cant": "Requires ranging over all inputs, including truncation at every byte.", "anchors": ["encoding/json/decoder.go", "internal/scanner/scanner.go:Scanner.Back"]}
{"id": "C12", "title": "String flags describe the string", "statement": "A string scalar produced by the JSON decoder is flagged unescaped exactly when its literal contains no escape, and is flagged alphanumeric exactly when its content is an identifier [A-Za-z_][A-Za-z0-9_]*.", "quantifier": "all string literals", "why_tests_cant": "Flags are computed incrementally over unbounded strings.", "anchors": ["encoding/json/decoder.go:ParseString", "token/tokens.go:Scalar.IsAlnum", "token/tokens.go:Scalar.IsUnescaped"]}
{"id": "C13", "title": "JSON output decodes back to the same stream", "statement": "For every sequence of JSON values and every encoder configuration (any indentation, any compact width, any compact item limit, no colors), decoding the encoder's output yields the very same token stream.", "quantifier": "all JSON values, all configurations", "why_tests_cant": "Layout decisions depend on widths, nesting and counts; the value space is infinite.", "anchors": ["encoding/json/encoder.go:Encoder.Consume", "encoding/json/encoder.go:Encoder.writeArrayCompact", "encoding/json/encoder.go:Encoder.writeObjectCompact", "internal/format/printer.go:DefaultPrinter"]}
{"id": "C14", "title": "JSON Lines mode prints one value per line", "statement": "With a negative IndentSize the encoder's output contains exactly one newline per value, at the end of that value.", "quantifier": "all JSON values, all compact limits", "why_tests_cant": "Every layout path must avoid newlines.", "anchors": ["internal/format/printer.go:DefaultPrinter.NewLine", "encoding/json/encoder.go"]}
{"id": "C15", "title": "Colors change nothing but colors", "statement": "Removing the inserted color codes from colored JSON output gives exactly the uncolored output.", "quantifier": "all values, configurations and color tables", "why_tests_cant": "Same as C13.", "anchors": ["internal/format/colorizer.go:Colorizer.PrintScalar", "encoding/json/encoder.go"]}
{"id": "C16", "title": "Write failures surface as an error and stop the output", "statement": "If the underlying writer fails at any write, Consume returns that error (it does not panic), and what was written before is a prefix of the normal output; if no write fails it returns nil.", "quantifier": "all values, configurations and failure points", "why_tests_cant": "A failure may occur at any of unboundedly many writes.", "anchors": ["internal/format/printer.go:CatchPrinterError", "encoding/json/encoder.go:Encoder.Consume", "encoding/jpv/encoder.go:Encoder.Consume"]}
{"id": "C17", "title": "JPV is reversible", "statement": "Encoding a JSON value to JPV and decoding it back gives the same token stream.", "quantifier": "all JSON values, with and without quoted keys", "why_tests_cant": "Values, keys and depths are unbounded.", "anchors": ["encoding/jpv/encoder.go:Encoder.Consume", "encoding/jpv/decoder.go:Decoder.Produce"]}
{"id": "C18", "title": "Any subset of JPV lines is valid JPV", "statement": "Deleting any lines from the JPV encoding of a JSON value (keeping the order) leaves text that the JPV decoder accepts and turns into the value restricted to the remaining leaves.", "quantifier": "all JSON values and all subsets of their lines", "why_tests_cant": "Exponentially many subsets of infinitely many values.", "anchors": ["encoding/jpv/decoder.go:Decoder.updatePath", "README.md"]}
{"id": "C19", "title": "The JPV decoder reports errors instead of panicking", "statement": "On every input the JPV decoder terminates with success or an error, never with a panic.", "quantifier": "all byte sequences", "why_tests_cant": "Panics hide in rarely exercised error paths.", "anchors": ["encoding/jpv/decoder.go:Decoder.updatePath", "encoding/jpv/decoder.go:Decoder.parseLine"]}
{"id": "C20", "title": "CSV decoding preserves the record structure", "statement": "For every sequence of CSV records the CSV decoder emits one array (or object) per data record with one item per field in order; with a header the i-th field is keyed by the i-th header name, and extra fields get the names field_<i>.", "quantifier": "all record sequences and options", "why_tests_cant": "Records have arbitrary, varying lengths.", "anchors": ["encoding/csv/decoder.go:Decoder.Produce", "encoding/csv/decoder.go:Decoder.getFieldName"]}
{"id": "C21", "title": "CSV fields keep their content", "statement": "A CSV field becomes a number exactly when the whole field is a JSON number, and then with the same spelling; otherwise (apart from empty, true, false) it becomes a string whose value is the field.", "quantifier": "all fields", "why_tests_cant": "The classification ranges over all strings.", "anchors": ["encoding/csv/decoder.go:fieldToScalar", "encoding/json/decoder.go:ParseNumber"]}
{"id": "C22", "title": "CSV string scalars are valid JSON string literals", "statement": "Every string scalar emitted by the CSV decoder is a valid JSON string literal, so that re-encoding CSV input as JSON produces JSON.", "quantifier": "all fields", "why_tests_cant": "Escaping must be right for every byte in every position.", "anchors": ["encoding/csv/decoder.go:csvFieldToStringScalar", "encoding/csv/decoder.go:simpleCSVFieldToStringScalar"]}
{"id": "C23", "title": "depth=N truncates exactly below depth N", "statement": "MaxDepthFilter with N >= 0 turns the stream of any values into the stream of the same values in which precisely the collections nested at depth N have their contents replaced by an elision.", "quantifier": "all values, all N", "why_tests_cant": "Unbounded nesting.", "anchors": ["transform/builtin.go:MaxDepthFilter.Transform"]}
{"id": "C24", "title": "split and join are inverse", "statement": "join turns any stream of values into one array of these values; split turns a stream of arrays into the concatenation of their items and copies other values unchanged; split after join is the identity on streams.", "quantifier": "all streams of values", "why_tests_cant": "Unbounded streams and nesting.", "anchors": ["transform/builtin.go:ExplodeArray.TransformValue", "transform/builtin.go:JoinStream.Transform", "iterator/transformer.go"]}
{"id": "C25", "title": "A pipeline's result does not depend on scheduling", "statement": "For any pipeline source -> transformers -> sink connected by channels, every schedule of the goroutines that runs to completion delivers the same tokens to the sink and the same error result; if one schedule completes, all do.", "quantifier": "all deterministic stages, all schedules", "why_tests_cant": "Interleavings cannot be enumerated.", "anchors": ["token/pipeline.go:TransformStream", "token/pipeline.go:StartStream", "token/tokenstream.go:ChannelWriteStream"]}
{"id": "C26", "title": "A pipeline never deadlocks", "statement": "As long as the sink still wants input and stages read until their input is closed, some goroutine of the pipeline can always make progress.", "quantifier": "all deterministic stages, all reachable states", "why_tests_cant": "Same as C25.", "anchors": ["token/pipeline.go"]}
{"id": "C27", "title": "Iteration visits every item once and skips exactly what is unread", "statement": "Iterating a collection yields its items in order exactly once; advancing (or discarding) after reading any part of the current item, to any depth, continues exactly at the next item.", "quantifier": "all values and all partial-consumption histories", "why_tests_cant": "Partial consumption can stop at any depth.", "anchors": ["iterator/streamiterator.go:Array.Advance", "iterator/streamiterator.go:Object.Advance", "iterator/streamiterator.go:collectionBase.Discard"]}
{"id": "C28", "title": "A clone is independent of its original", "statement": "Cloning an unstarted value gives two values that can be consumed in any order and to any extent, each yielding the whole value; detaching the clone does not affect the original.", "quantifier": "all values and interleavings", "why_tests_cant": "Same as C01, one level up.", "anchors": ["iterator/streamiterator.go:collectionBase.clone", "iterator/streamiterator.go:Iterator.Clone"]}
{"id": "C29", "title": "Value equality is JSON equality", "statement": "Equal on two values is true exactly when they are the same JSON value: arrays item by item, objects as unordered maps, scalars by value.", "quantifier": "all pairs of values with distinct object keys, valid strings and numbers in the range of float64, followed by any use of the stream and the values", "why_tests_cant": "Object comparison explores key orders; infinitely many pairs.", "anchors": ["iterator/streamiterator.go:Object.Equal", "iterator/streamiterator.go:Array.Equal", "token/tokens.go:Scalar.Equal"]}
{"id": "C30", "title": "Safe comparison does not consume its arguments", "statement": "SafeValuesEqual leaves both values unread: iterating them afterwards yields all their items.", "quantifier": "all pairs of values with distinct object keys, valid strings and numbers in the range of float64, followed by any script of iterator operations", "why_tests_cant": "Requires a frame argument over arbitrary values.", "anchors": ["iterator/streamiterator.go:SafeValuesEqual"]}
{"id": "C31", "title": "Scalar equality is an equivalence", "statement": "Scalar.Equal is reflexive, symmetric and transitive on decodable scalars and does not depend on the key/alnum flags.", "quantifier": "all scalars", "why_tests_cant": "Infinite domain, with a fast path and a slow path that must agree.", "anchors": ["token/tokens.go:Scalar.Equal"]}
{"id": "C32", "title": "Index and slice selectors select what RFC 9535 says", "statement": "For every array length, an index or slice selector evaluated in streaming mode (with the bounded lookahead) selects exactly the indices given by RFC 9535, and a negative step reverses the order.", "quantifier": "all lengths, all safe-integer bounds and steps", "why_tests_cant": "Boundary arithmetic over 64-bit integers and unknown array length.", "anchors": ["transform/jsonpath/selectorrunners.go:SliceSelectorRunner", "transform/jsonpath/selectorrunners.go:ReverseSliceSelectorRunner", "transform/jsonpath/selectorrunners.go:IndexSelectorRunner", "transform/jsonpath/compiler.go:compileSliceSelector", "transform/jsonpath/segmentrunner.go:transformArrayRelaxed"]}
{"id": "C33", "title": "A child segment yields the selectors' results in RFC order", "statement": "A child segment [S1,...,Sn] outputs all nodes selected by S1 in order, then all nodes selected by S2, and so on, though the collection is read once.", "quantifier": "all selector lists, all values", "why_tests_cant": "The dispatcher interleaves selection and buffering; unboundedly many patterns.", "anchors": ["transform/jsonpath/segmentrunner.go:itemDispatcher", "transform/jsonpath/segmentrunner.go:transformObjectRelaxed"]}
{"id": "C34", "title": "Query results are those of RFC 9535", "statement": "Transforming a stream with a compiled query outputs, for each value of the stream, the nodelist RFC 9535 assigns to the query (up to document-order emission of descendants in the default mode; exactly in that order in strict mode).", "quantifier": "all queries, all values, both modes", "why_tests_cant": "Infinitely many queries and documents.", "anchors": ["transform/jsonpath/queryrunner.go:MainQueryRunner.Transform", "transform/jsonpath/segmentrunner.go", "transform/jsonpath/compiler.go"]}
{"id": "C35", "title": "Filters test existence and compare as RFC 9535 says", "statement": "A filter keeps a node exactly when its logical expression is true of it under RFC 9535 (existence tests true when the query selects at least one node; comparisons with missing values; && || !).", "quantifier": "all filter expressions and values", "why_tests_cant": "Infinite domain; short-circuit evaluation and early termination interact.", "anchors": ["transform/jsonpath/logicalevaluators.go", "transform/jsonpath/queryrunner.go:QueryEvaluator.EvaluateTruth"]}
{"id": "C36", "title": "Filter functions return the RFC 9535 values", "statement": "length, count, value, match and search return what RFC 9535 specifies.", "quantifier": "all arguments", "why_tests_cant": "Infinite domain.", "anchors": ["transform/jsonpath/function.go"]}
{"id": "C37", "title": "Running a query never panics", "statement": "Running any successfully compiled query on any stream of JSON values terminates without a panic.", "quantifier": "all queries and values", "why_tests_cant": "Panics hide in combinations of query shape and document shape.", "anchors": ["transform/jsonpath/queryrunner.go:computeRunContext", "internal/jsonpath/iregexp/iregexp.go:Compile"]}
{"id": "C38", "title": "Query output is a well-formed stream", "statement": "The token stream output by a query is the token stream of a sequence of JSON values, so the next stage can consume it.", "quantifier": "all queries and values", "why_tests_cant": "Same as C34.", "anchors": ["transform/jsonpath/segmentrunner.go:itemDispatcher.ProcessValue"]}
{"id": "C39", "title": "Invalid queries are rejected", "statement": "A string that is not a valid JSONPath query is reported as an error.", "quantifier": "all query strings", "why_tests_cant": "The set of invalid strings is infinite.", "anchors": ["internal/jsonpath/jsonpath.go:ParseQueryString", "internal/jsonpath/parser/grammar.go:DescendantSegment.CompileToSegment"]}
{"id": "C40", "title": "Ill-typed function calls are rejected at compile time", "statement": "A query whose function expressions are not well-typed (unknown name, wrong number of arguments, wrong argument or result type) does not compile, so that running a compiled query never hits a type mismatch.", "quantifier": "all queries", "why_tests_cant": "Infinite set of expressions.", "anchors": ["transform/jsonpath/compiler.go:compileFunctionExpr", "transform/jsonpath/compiler.go:compileFunctionArg"]}
{"id": "C41", "title": "Input format detection recognises JPV", "statement": "With automatic detection, input starting with $ is read as JPV, input starting with { or [ as JSON.", "quantifier": "all inputs", "why_tests_cant": "Patterns over all strings.", "anchors": ["cmd/jp/main.go:guessFormat"]}
{"id": "C42", "title": "Streaming emission", "statement": "When a query such as $[*] or $[:N] selects an item, the item's tokens are output before the input beyond that item (plus the lookahead) is read.", "quantifier": "all inputs, including unbounded ones", "why_tests_cant": "Is about every prefix of an infinite execution.", "anchors": ["transform/jsonpath/segmentrunner.go", "README.md"]}
{"id": "C43", "title": "A failing reader is never mistaken for the end of the input", "statement": "If the io.Reader given to the JSON decoder fails with an error other than io.EOF, Produce returns an error, whatever was read before (for input without the byte 0xFF, which the scanner uses as its end mark).", "quantifier": "all byte sequences read before the failure, all chunkings, all buffer sizes", "why_tests_cant": "the failure can happen after any byte of any input, inside any syntactic construct", "anchors": ["/repo/encoding/json/decoder.go: Decoder.Produce, checkEOF", "/repo/internal/scanner/scanner.go: Scanner.fillBuffer"]}
{"id": "C44", "title": "Malformed input ends in an error, not in a crash of the output stage", "statement": "Whatever tokens reach it, the JSON encoder terminates; when the input is malformed or truncated the program reports an error: the output stage does not panic on the tokens that were produced before the error.", "quantifier": "all inputs, all encoder settings", "why_tests_cant": "The input can be cut off after any byte of any document.", "anchors": ["encoding/json/encoder.go:Encoder.Consume", "iterator/streamiterator.go:Array.Advance", "iterator/streamiterator.go:Object.Advance", "encoding/json/decoder.go:Decoder.Produce"]}
{"id": "C45", "title": "Queries are read as written", "statement": "A query string that is valid JSONPath is read as the query it spells: names and string literals (in single or double quotes, with any escapes) have the characters RFC 9535 gives them, indexes and slice bounds have their decimal value (a missing step is 1), operators, negations and the nesting of && and || are kept. Every integer of a query that is run is within \u00b1(2^53-1).", "quantifier": "all valid query strings", "why_tests_cant": "There are infinitely many literals, escapes and nestings.", "anchors": ["internal/jsonpath/parser/grammar.go", "internal/jsonpath/parser/parse_literals.go", "token/tokens.go:StringScalar"]}
{"id": "C46", "title": "Patterns mean what RFC 9485 says", "statement": "In match() and search() a pattern that is an I-Regexp (RFC 9485) has the meaning of the RFC: a dot outside classes matches all characters but line feed and carriage return, escapes, classes, groups and quantifiers are kept; search() is true exactly when some part of the string matches, match() only when all of it does.", "quantifier": "all I-Regexps, all strings", "why_tests_cant": "Infinitely many patterns and strings; the rewriting depends on the nesting of classes and escapes.", "anchors": ["internal/jsonpath/iregexp/iregexp.go:iregexpString", "transform/jsonpath/function.go:matchIndex"]}
{"id": "C47", "title": "Invalid patterns are false every time", "statement": "A pattern that is not a valid regular expression makes match() and search() false; the result of a call does not depend on the calls made before it.", "quantifier": "all sequences of calls", "why_tests_cant": "Depends on the history of patterns used before in the process.", "anchors": ["internal/jsonpath/iregexp/iregexp.go:Compile", "transform/jsonpath/function.go:matchIndex"]}
{"id": "C48", "title": "Key extractors return the members with the key", "statement": "The key extractor replaces each object of the stream by the values of its members with the given key, in order, and drops other values; the deep key extractor returns the values of all members with the key at any depth, in document order. Keys are compared as character strings, however they are escaped.", "quantifier": "all streams of values, all keys", "why_tests_cant": "Nesting, repetition of keys and spellings of keys are unbounded.", "anchors": ["internal/legacy/transformers.go:KeyExtractor", "internal/legacy/transformers.go:DeepKeyExtractor"]}
{"id": "C49", "title": "Status 0 means that the output has been delivered", "statement": "jp writes to standard output exactly the encoding of the stream, in order, whatever the buffering. If standard output fails after k bytes it has received exactly the first k bytes of it. If jp exits with status 0 (and the failure was not a closed pipe), the whole output has been delivered; if it exits with status 1 because of the output, bytes are missing.", "quantifier": "all outputs, all points at which standard output fails, all options", "why_tests_cant": "The failure can come at any byte of any output, and what is lost depends on how writes fall into the buffer.", "anchors": ["cmd/jp/main.go:main", "cmd/jp/main.go:fatalError", "internal/format/printer.go:DefaultPrinter"]}
{"id": "C50", "title": "Invalid input gives a nonzero status", "statement": "When the input is malformed or cut off, jp exits with a status other than 0, so that a script can tell.", "quantifier": "all malformed inputs", "why_tests_cant": "The input can be malformed at any byte of any document.", "anchors": ["cmd/jp/main.go:main", "token/pipeline.go:StartStream"]}
{"id": "C51", "title": "Reformatting keeps the values and is idempotent", "statement": "jp with JSON input and output and without transformers turns every valid JSON text into a JSON text of the same values, with status 0, however the input arrives; running it again on its output gives the same output byte by byte.", "quantifier": "all valid JSON texts, all ways they are cut into reads, all indentations and widths", "why_tests_cant": "Infinitely many documents, cuts and layouts.", "anchors": ["cmd/jp/main.go:main", "encoding/json/decoder.go:Decoder.Produce", "encoding/json/encoder.go:Encoder.Consume"]}
{"id": "C52", "title": "Arguments stand for the documented transformers", "statement": "The argument of jp split, join, trace, depth=N (N a decimal integer that fits 64 bits) and any argument that begins with $ stand for that transformer, with that number and that query; every other argument is an error.", "quantifier": "all arguments", "why_tests_cant": "Infinitely many arguments, among them numbers with signs, leading zeros and out of range.", "anchors": ["cmd/jp/main.go:parseTransformer"]}
{"id": "C53", "title": "jp with a query writes the nodes of RFC 9535 as valid JSON", "statement": "jp with JSON input and output and a query turns every valid JSON text into a valid JSON text of the nodes that RFC 9535 selects in each of its values, value after value, and exits with status 0; how the input is cut into reads does not matter.", "quantifier": "all valid JSON texts, all ways they are cut into reads, all queries, all indentations and widths", "why_tests_cant": "Infinitely many documents, queries, cuts and layouts, and decoder, query engine and encoder have to agree on all of them.", "anchors": ["cmd/jp/main.go:main", "encoding/json/decoder.go:Decoder.Produce", "transform/jsonpath/queryrunner.go:MainQueryRunner", "encoding/json/encoder.go:Encoder.Consume"]}
{"id": "C54", "title": "Every RFC 9535 query string is read", "statement": "Every string that the grammar of RFC 9535 derives, with integers within the I-JSON range, number literals within the range of float64 and function arguments of the types that functions can have, is accepted by ParseQueryString and ParseQueryStringStrict and read as the one query that it spells. No string is the text of two queries.", "quantifier": "all strings of the grammar of RFC 9535", "why_tests_cant": "The grammar derives infinitely many strings, and the tokeniser and the parser decide greedily.", "anchors": ["internal/jsonpath/jsonpath.go:ParseQueryString", "internal/jsonpath/jsonpath.go:ParseQueryStringStrict", "internal/jsonpath/parser/lexer.go", "internal/jsonpath/parser/grammar.go"]}
{"id": "C55", "title": "Only queries are read after a dollar sign", "statement": "A UTF-8 string that begins with $ (perhaps after blank space) is accepted only if it is a query of the grammar of RFC 9535 with blank space allowed after every token; every other such string, in particular a query followed by something else, is an error. ParseQueryStringStrict also rejects blank space at the ends.", "quantifier": "all UTF-8 strings that begin with a dollar sign", "why_tests_cant": "There are infinitely many strings that are nearly queries.", "anchors": ["internal/jsonpath/jsonpath.go:ParseQueryString", "internal/jsonpath/jsonpath.go:ParseQueryStringStrict", "internal/jsonpath/parser/lexer.go", "internal/jsonpath/parser/grammar.go"]}
{"id": "C56", "title": "Strict mode changes the order of the results only", "statement": "With and without -jsonpath-strict, a query gives for each value of the input the same results, each the same number of times; only their order may differ.", "quantifier": "all queries, all streams of values", "why_tests_cant": "The two modes run different algorithms for descendant segments, with values put aside and replayed; the claim is about every query and every document.", "anchors": ["transform/jsonpath/segmentrunner.go", "transform/jsonpath/compiler.go", "cmd/jp/main.go:strictMode", "README.md"]}
{"id": "C57", "title": "Results in document order", "statement": "Without -jsonpath-strict, the results of a query come in the order in which they start in the document.", "quantifier": "all queries, all streams of values", "why_tests_cant": "Needs every nesting of matches inside matches.", "anchors": ["transform/jsonpath/segmentrunner.go", "README.md: Strict Mode vs Default Mode", "cmd/jp/main.go: JSONPATH STRICT MODE vs DEFAULT MODE"]}
{"id": "C58", "title": "Queries without filters, lookahead or several selectors keep nothing of the input", "statement": "Running a JSONPath query whose segments are child segments with one selector each, which is a name, a wildcard, an index or a slice counted from the front, keeps no token of the input: each result is a contiguous piece of the input that is written while it is being received, with nothing after it asked for, and no buffer is made, so that memory does not grow with the input.", "quantifier": "all such queries, both modes, all inputs, be they JSON or not, all points of the run", "why_tests_cant": "A claim about every state of every run, on inputs of any size; tests only see outputs.", "anchors": ["transform/jsonpath/segmentrunner.go", "transform/jsonpath/queryrunner.go", "iterator/streamiterator.go", "token/cursor.go", "README.md: streaming"]}
{"id": "C59", "title": "A command that cannot be carried out is refused", "statement": "jp refuses a command exactly if its -color, -in or -out is unknown, -file is used, the format of the input cannot be guessed, -csv-header is used with csv-with-header or csvh, or some argument is not split, join, trace, depth=N or a readable, well-typed query. Then it writes nothing to standard output and ends with status 1; a command that is not refused never ends with status 1 while standard output takes what is written.", "quantifier": "all values of the flags and arguments, all inputs, terminal or not", "why_tests_cant": "An exact characterisation of an infinite set of command lines and inputs.", "anchors": ["cmd/jp/main.go: main, parseTransformer, fatalError, guessFormat"]}
{"id": "C60", "title": "jp applies its arguments from left to right to the values of the input", "statement": "For a JSON text of any values, or CSV, jp writes what results from applying its arguments one after the other to these values - split replaces arrays by their items, join makes one array of all values, trace leaves nothing, depth=N truncates, a query replaces each value by its nodes - in the output format that was asked for, and ends with status 0. Without depth=N, JSON output is a valid JSON text of exactly these values, however the input arrives in pieces.", "quantifier": "all sequences of arguments (queries of the class of C34), all JSON texts and CSV records, all options", "why_tests_cant": "Infinitely many pipelines, inputs and ways in which the input arrives.", "anchors": ["cmd/jp/main.go: main, parseTransformer", "transform/transform.go", "encoding/csv/decoder.go", "encoding/json", "token/stream.go"]}
{"id": "C61", "title": "jp, grep and jp again: any choice of the JPV lines of a value is read back as that value without the other leaves", "statement": "When jp -out jpv writes a value, each leaf is one line. For any choice of these lines, kept in order - as grep makes it - jp -in jpv reads them, applies its arguments and writes JSON; without arguments what it writes is a JSON text of the value with the other leaves (and collections in which nothing is left) removed. Both commands end with status 0, however the input arrives in pieces.", "quantifier": "all JSON inputs and arguments of the first command that give one value that JPV can represent (no empty key unless -quote-keys, no repeated keys), all choices of lines, all arguments of the second command of the class of C60, all options but colours and -json-compact of the first", "why_tests_cant": "Infinitely many values, pipelines and choices of lines, over two runs of the command.", "anchors": ["README.md: JPV, grep", "cmd/jp/main.go: main", "encoding/jpv/encoder.go", "encoding/jpv/decoder.go", "encoding/json"]}
{"id": "C62", "title": "The outcome of a jp command does not depend on how its goroutines are scheduled", "statement": "A jp command runs its decoder, each of its transformers (split, join, trace, depth=N, queries) and its encoder in goroutines connected by unbuffered channels. Whenever the command has an outcome (the decoder and the transformers, applied one after the other, do not panic), every schedule of these goroutines comes to an end, no schedule gets stuck before the encoder has been given all its tokens, and at that time the encoder has been given the same tokens, so that the bytes on standard output and the exit status are the same.", "quantifier": "all commands that main accepts (formats, options and any number of arguments, any queries), all inputs and their arrival in pieces, all schedules of the goroutines", "why_tests_cant": "The number of interleavings is unbounded, and so are inputs, queries and pipelines; a test sees one schedule.", "anchors": ["cmd/jp/main.go: main", "token/pipeline.go: StartStream, TransformStream, ConsumeStream", "iterator/transformer.go: AsStreamTransformer", "iterator/streamiterator.go", "transform/builtin.go", "transform/jsonpath/queryrunner.go"]}
{"id": "C63", "title": "A pipe of two jp commands is one jp command with both lists of arguments", "statement": "The README says that jp T1 T2 can be used instead of jp T1 | jp T2. When the first command reads JSON, or JPV with quoted names, and writes JSON without colours, and succeeds, the second command, reading what the first one wrote in any pieces, has the same outcomes (bytes on standard output and exit status) as one command with the input format of the first, the output options of the second and the arguments of both in order. It does not hold for depth=N in the first command: the dots that stand for what was left out are not JSON. Nor does it hold for CSV in the first command and JPV in the second: the two decoders flag names with a quotation mark differently, and the JPV encoder writes them accordingly.", "quantifier": "all JSON inputs and all lines of JPV with quoted names, and their arrival in pieces, all arguments of the first command made of split, join, trace and ordinary queries, all arguments and output options of the second command, all pieces in which the pipe delivers the text, all devices the second command writes to", "why_tests_cant": "Ranges over all inputs, all lists of arguments and all ways in which the text is cut into pieces between two processes.", "anchors": ["README.md: Chaining", "cmd/jp/main.go: main", "encoding/json/encoder.go", "encoding/json/decoder.go", "encoding/csv/decoder.go: fieldToScalar"]}
{"id": "C64", "title": "jp, sed and jp again: JPV lines whose values have been edited are read back as the value with these leaves replaced", "statement": "jp -out jpv writes one line '$path = value' for each leaf (scalar or empty collection) of the value that its arguments make of the JSON it reads. When the text after the equal signs is replaced in any lines by other leaves (valid scalars or empty collections), and any lines are removed, jp -in jpv reads the rest, in any pieces, and writes valid JSON of exactly the value with these leaves replaced, without the leaves whose lines are gone, with exit status 0. The same holds for the lines of any value, whoever has written them.", "quantifier": "all JSON inputs whose value has distinct keys in each object and arrays of less than 2^53 items, all edits of values (functions of path and leaf), all choices of lines, all arrival in pieces, both quoting modes", "why_tests_cant": "Ranges over all values, all subsets of their leaves and all replacements.", "anchors": ["README.md: Edit Values with sed", "cmd/jp/main.go: main", "encoding/jpv/encoder.go: Consume", "encoding/jpv/decoder.go: Produce"]}
{"id": "C65", "title": "The layout of JSON output: what is on one line, how broken arrays are grouped, and where the help text is wrong", "statement": "For any values and any settings, the JSON output is exactly: each value followed by a line feed; scalars and keys with their colour codes; a collection on one line, its items separated by a comma and a space, when it is empty or has only scalars that are together not wider than -json-compact-width (objects: and at most two members); other collections with a line break and the indentation after the opening bracket, after each comma between lines and before the closing bracket; consecutive scalars of a broken array grouped on lines not wider than the limit, nested collections on lines of their own, and each item on a line of its own from the first scalar on that is wider than the limit. jp writes this for the values that its arguments make of the input. The help's statements that small objects that fit are inline, that [95, 87, 92] is split at width 10, and its samples of default and -json-compact output do not hold.", "quantifier": "all values (elided ones, too), all widths, indentations, limits and colours, all token streams of values, all arguments of jp of the class of C60", "why_tests_cant": "Ranges over all values and all settings; tests compare a few outputs.", "anchors": ["README.md: JSON options", "cmd/jp/main.go: printOutputHelp, main", "encoding/json/encoder.go: Consume, writeArray, writeObject, writeArrayCompact, writeObjectCompact", "internal/format/printer.go: DefaultPrinter", "internal/format/colorizer.go: Colorizer"]}
{"id": "C66", "title": "Output without waiting for the end of the input", "statement": "When standard input has delivered some bytes and the next ones have not come yet, the JSON decoder has sent every token that is complete in those bytes, for any cut into chunks (a number is complete with the byte after it). On a terminal jp has then printed every complete value; inside a value, every complete line of the JSON output and the line of every scalar of the JPV output; and every record of an unfinished top-level array when the next record begins. Output once written stays. When standard output is not a terminal, at most one buffer (4096 bytes) is held back, but complete values can be among that: the help text's promise of immediate results in pipes does not hold. On a terminal the last line of a complete record of an unfinished array waits for what follows it.", "quantifier": "all beginnings of JSON texts, all cuts into chunks, all scanner buffer sizes of at least 2, all options (JSON and JPV output, indentation, width, colours), at every point where jp waits", "why_tests_cant": "Ranges over all beginnings of all inputs and over all ways they arrive; tests give the whole input at once and look at the output after the end.", "anchors": ["README.md: Immediate output", "cmd/jp/main.go: main, printCookbookHelp", "internal/scanner/scanner.go: fillBuf, Read, Peek", "encoding/json/decoder.go: Produce", "encoding/json/encoder.go: Consume", "encoding/jpv/encoder.go: Consume", "internal/format/printer.go: DefaultPrinter"]}
{"id": "C67", "title": "jp reads its input to the end", "statement": "For any arguments, any input and any schedule of the goroutines, when the encoder has come to the end of its input, the decoder and all transformers have ended, too: no goroutine is left behind, and jp never ends while standard input may still deliver bytes. So the promise that '$.items[:N]' stops reading after N items (help text and README) does not hold: the items are handed to the encoder as soon as they have been received, but jp goes on reading.", "quantifier": "all command lines of the modelled class (split, join, trace, depth=N and queries), all inputs, all beginnings of JSON texts that have been received, all schedules", "why_tests_cant": "Ranges over all schedules and all arguments; tests give an input that ends and see nothing of who reads it.", "anchors": ["README.md: jp '$.items[:10]'", "cmd/jp/main.go: main, printCookbookHelp", "token/pipeline.go: TransformStream, StartStream, ConsumeStream", "iterator/transformer.go: Transform", "transform/builtin.go: Transform", "transform/jsonpath/queryrunner.go: TransformValue"]}
{"id": "C68", "title": "Counting from the end of an array keeps a sliding window of items", "statement": "A query with one selector that counts from the end of arrays ('$.items[-N:]', '[-N]', '[a:-N:step]', '[-N:-b]') between names, wildcards, indices and slices from the start writes what it selects and, at every moment of the run, keeps at most the tokens of N+2 consecutive items of an array and 102 more per array being read, however long the arrays and the input are: with items of at most T tokens, (N+2)*T+102. This does not hold for a slice that starts from the end and stops at a position from the start ('[-3:2]'): it selects nothing from a long array but keeps all of it.", "quantifier": "all inputs of any length and depth, all N below 2^53, both strictness modes, every moment of the run", "why_tests_cant": "The bound must hold for arrays of any length at every step; a test sees the memory of one run on one input.", "anchors": ["README.md: $.items[-N:]: Sliding window (N items in memory)", "transform/jsonpath/segmentrunner.go: transformArrayRelaxed, transformArrayStrict", "transform/jsonpath/selectorrunners.go: Lookahead, SelectsFromIndex", "token/cursor.go: AdvanceCursor, advanceWindow, updateCatchupCount", "iterator/streamiterator.go: Clone"]}
{"id": "C69", "title": "A filter keeps at most one item of the input in a window", "statement": "A query '$ ... [selectors] ...' in which child segments that select by name, wildcard or position from the start are followed by a child segment that may have filters, and then by anything (further filters, '..', indices from the end), writes what it selects and, at every moment of the run, no window of tokens holds more than the tokens of one item as the filter sees it, however many items there are. This holds for conditions of any form whose queries start at the current node; it does not hold when a condition refers to the root ('$[?@ == $[0]]'), where the whole input is kept.", "quantifier": "all inputs of any length and depth, all queries of that form, both strictness modes, every moment of the run", "why_tests_cant": "The bound must hold for arrays of any length and every condition at every step; a test sees the memory of one run on one input.", "anchors": ["transform/jsonpath/segmentrunner.go: dispatchItem, transformArrayRelaxed, transformObjectRelaxed, transformArrayStrict, transformObjectStrict", "transform/jsonpath/logicalevaluators.go: EvaluateTruth", "transform/jsonpath/functionrunnner.go: run", "transform/jsonpath/queryrunner.go: computeRunContext", "iterator/streamiterator.go: Clone", "token/cursor.go: CloneReadStream, AdvanceCursor"]}
{"id": "C70", "title": "JPV output, character by character", "statement": "With -out jpv (or path) jp prints, for each value in order, the lines of the value and then an empty line. A scalar has the line '$path = text'. A collection has the lines of its items or members in order; an empty one has in addition '$path = []' or '$path = {}', one of which parts were left out (depth=N) has a last line '$path = ...', or '$path = [...]' / '$path = {...}' if nothing is left. A path is written with '.name' for keys flagged as plain names (unless -jpv-quote-keys), '[\"name\"]' for other keys and '[i]' with the decimal index for items. With colours each key and scalar, and nothing else, is surrounded by its colour code and the reset code. With -json-compact or a negative -json-indent the lines of a value are not ended by line feeds. The text is determined by the value and the options.", "quantifier": "all streams of values of any size and depth, with or without elided parts, all colour tables, all indentations, both quoting modes; at the command level all JSON inputs in any chunking and all argument lists of the class of C60, depth=N included", "why_tests_cant": "The text must be right for every combination of nesting, elision, key flags, colours and indentation; a test compares a few outputs.", "anchors": ["encoding/jpv/encoder.go: Consume, writeValue, writeObject, writeArray, writeScalar, writePath", "internal/format/colorizer.go: PrintScalar, PrintSuccintScalar, ScalarColorCode", "internal/format/printer.go: NewLine, Reset", "cmd/jp/main.go: main"]}
{"id": "C71", "title": "The command line", "statement": "jp reads its words as options, written with one dash or two, and then arguments, which begin at the first word that is empty, a single dash or without a dash, or after '--'. A switch is turned on by its name, or set by '=' and one of 1 t T true TRUE True 0 f F false FALSE False; an option with a value takes it after '=' or from the next word, whatever that is; integers are written as in Go (sign, prefixes 0b 0o 0x, octal after 0, underscores between digits) and must fit in 64 bits. Of an option that is given twice the last one counts. Words of this form have one reading, and jp carries out that command, or, if -help-input, -help-output, -help-transforms or -help-cookbook is on, writes nothing to standard output and ends with status 0. After any options -h or -help ends jp with status 0; all other words end it with status 2; in both cases nothing is written to standard output. Options after the first argument are refused with status 1. Refuted: the documented option -strict does not exist (status 2), and -colors=false turns colours on.", "quantifier": "all lists of words, all bytes in them, all inputs and output devices", "why_tests_cant": "There are infinitely many command lines, and the order of options, the words taken as values and the spelling of numbers interact; a test tries a few of them.", "anchors": ["cmd/jp/main.go: main, printUsage, printTransformsHelp"]}
{"id": "C72", "title": "The text of CSV", "statement": "From a CSV text, with the comma between fields, jp reads exactly the records that the text is the text of by RFC 4180: a field is written as it is, without quotation marks, commas and line feeds, or between quotation marks, which are then doubled within it; records stand on lines, which end with LF or CR LF, the last one with or without; empty lines are no records. Every text has at most one reading, and reading always ends. It ends without an error just when the text has this form, all its records have the same number of fields and the input can be read to its end. Otherwise the records that are used are those of the text up to some line, and include all that stand before the fault. Records written with quotation marks around every field and either line end are read as they were, if no field has a carriage return. jp decodes, transforms and prints the records that are read. Refuted: a record with another number of fields silently ends the output with status 0, and CR LF within a quoted field becomes LF.", "quantifier": "all texts, all lists of records of any length with fields of any bytes, all inputs that end or fail at any place, all formats and transforms of jp", "why_tests_cant": "Quotation marks, commas, line ends and blank lines can be combined without bound and a fault can be anywhere in a text; a test reads a few texts.", "anchors": ["encoding/csv/decoder.go: NewDecoder, Decoder.Produce", "cmd/jp/main.go: main"]}
{"id": "C73", "title": "Go values and scalars", "statement": "ToScalar makes of nil, a bool, an int, an int64 and a string the JSON literal of that value: the integer in decimal, and for a string of any bytes a literal of its characters, with U+FFFD for each byte at which no character in UTF-8 begins; other Go types are refused with an error. ToGo gives back the value of a literal: nil, the truth value, the characters of the string in UTF-8, and for numbers the nearest float64, or a panic if that is out of range. So nil, bools and strings in UTF-8, and just those strings, come back as they were, and integers below 2^53 as the float64 with that value. Refuted: larger integers come back changed, and a valid JSON number such as 1e400 makes ToGo panic.", "quantifier": "all Go values, all strings of bytes, all scalars with a JSON value, any flags", "why_tests_cant": "Strings are sequences of bytes of any length, with escapes for some characters and with ill-formed sequences of bytes at any place; a test tries a few.", "anchors": ["token/tokens.go: ToScalar, StringScalar, Int64Scalar, Float64Scalar, BoolScalar, Scalar.ToGo, parseJsonLiteralBytes"]}
{"id": "C74", "title": "The recipes of the cookbook do what the help text says", "statement": "Used like head, tail and grep, as 'jp -help cookbook' shows it, jp prints what one expects. For any path .name.name and any JSON input: [:N] prints the first N items of the array that is found there, [-N:] the last N, [N] one of them, [*] all items or values of members; [?@.name] those that have such a member, [?@.name == true], [?@.name == \"text\"], [?@.name > number] and < those whose member is that, in their order; ..name and ..[?...] everything of that kind at any depth, in the order of the text; where nothing is found nothing is printed. Recipes, split and join can follow one another. The output is a JSON text of exactly these values and the status is 0.", "quantifier": "all JSON inputs in any pieces, all paths, names, numbers N below 2^53, string and number literals, all sequences of recipes, split and join", "why_tests_cant": "N is larger or smaller than arrays of any length, the names occur at any depths, in any order and any number of times; a test has a few documents.", "anchors": ["cmd/jp/main.go: printCookbookHelp, main", "internal/jsonpath/jsonpath.go: ParseQueryString", "transform/jsonpath/compiler.go: CompileQuery", "transform/jsonpath/queryrunner.go: MainQueryRunner.Transform"]}
{"id": "C75", "title": "A CSV file with a header is a table that can be queried by column", "statement": "For a CSV text whose first line names the columns, jp -in csvh '$.NAME' prints exactly the cells of the column NAME, one for each row, in their order: null for an empty cell, numbers and booleans as such, all other text as a string. jp -in csvh join '$[?@.NAME > NUMBER]' prints exactly the rows whose cell in this column is a greater number, as objects with all their columns, in their order; other tests likewise. The same holds for -in csv when the names of the columns are given with -csv-header. Any arguments are applied to the objects for the rows, from left to right. The output is a JSON text and the status is 0.", "quantifier": "all CSV texts of a header with different column names and rows of as many cells, each cell empty, a number in the range of float64, or UTF-8 text without control characters other than line feeds and not made of the characters of numbers only; any division of the input into reads; all columns whose name can be written after a dot, all numbers; fewer than 2^53 tokens", "why_tests_cant": "There are infinitely many tables, quoted and unquoted ways to write each cell, and divisions of the input into reads; a test shows one column of one table.", "anchors": ["encoding/csv/decoder.go: Produce, fieldToScalar, SetFieldNames", "cmd/jp/main.go: main, parseTransformer", "transform/jsonpath/compiler.go: CompileQuery", "README.md: Format Conversion"]}
{"id": "C76", "title": "A CSV file with a header can be edited as lines, one for each cell, and turned into JSON", "statement": "For a CSV text whose first line names the columns, jp -in csvh -out jpv join writes exactly one line for each cell, row by row: $[j].NAME = VALUE, or $[j][\"NAME\"] = VALUE if the name is not an identifier or names are to be quoted, where VALUE is null for an empty cell, a number or boolean as such, and a string for any other text. A second jp that reads any choice of these lines, in their order, sees the array of the rows restricted to the chosen cells, applies its arguments to it and writes JSON with status 0.", "quantifier": "all tables as in C75 whose names are not empty (or with quoted names), all choices of lines, any white space after them, any division of both inputs into reads, all arguments of the second command other than a depth", "why_tests_cant": "There are infinitely many tables and 2^n choices among n lines; a test compares one file.", "anchors": ["encoding/csv/decoder.go: Produce, fieldToScalar", "encoding/jpv/encoder.go: Consume", "encoding/jpv/decoder.go: Produce", "transform/builtin.go: JoinStream", "cmd/jp/main.go: main"]}
{"id": "C77", "title": "Values can be changed line by line", "statement": "jp -out jpv writes one line for each leaf of a value. When lines are edited after the equals sign, each to any JSON literal or to [] or {}, a second jp -in jpv that reads the edited lines sees the value with these leaves instead, its collections and keys as they were; when some lines are left out, it sees that value restricted to the rest. It applies its arguments to it and writes JSON with status 0.", "quantifier": "all JSON inputs and arguments of the first command that make one value whose objects have different keys, as in C61; all edits of any number of leaves, all choices of the edited lines, any white space after them, any division of both inputs into reads, all arguments of the second command other than a depth", "why_tests_cant": "Values, edits and choices of lines are unbounded; a test makes one edit in one file.", "anchors": ["encoding/jpv/encoder.go: Consume", "encoding/jpv/decoder.go: Produce", "cmd/jp/main.go: main"]}
{"id": "C78", "title": "A CSV file without a header is read as rows whose columns are numbered", "statement": "For a CSV text with rows of the same length, jp -in csv makes an array of each line, the first included, with an item for each cell: null for an empty cell, numbers and booleans as such, all other text as a string. '$[N]' prints exactly the cells of column N, counted from 0, one for each row, in their order, and nothing when there are not so many columns; join prints one array of all the rows. Any arguments are applied to the arrays, from left to right. The output is a JSON text and the status is 0.", "quantifier": "all CSV texts of rows of the same length, cells as in C75, any division of the input into reads, all column numbers in the range of RFC 9535; fewer than 2^53 tokens", "why_tests_cant": "There are infinitely many texts, quoted and unquoted ways to write each cell, and divisions of the input into reads; a test shows one column of one file.", "anchors": ["encoding/csv/decoder.go: Produce, produceRecord, fieldToScalar", "cmd/jp/main.go: main, parseTransformer", "transform/builtin.go: JoinStream"]}
{"id": "C79", "title": "What jp writes does not depend on the format in which the values came", "statement": "The same values given as CSV, as lines of JPV (names quoted or not, any choice of the lines) or as JSON, with the same arguments and the same output options, make jp write the same bytes to standard output and end with the same status, when the output is JSON without colours. The decoders of the three formats describe the spelling of strings with different flags (is it a key, alphanumeric, without escapes); no result of a query, of split, of join or of depth=N depends on them.", "quantifier": "all CSV texts, all lines of JPV, all JSON texts of the same values, their arrival in pieces, all arguments made of split, join, trace, depth=N and ordinary queries, all options for JSON output", "why_tests_cant": "Ranges over all values, all their texts in three formats and all queries, including filters and functions that compare strings spelt in different ways.", "anchors": ["encoding/json/decoder.go: ParseString", "encoding/jpv/decoder.go: parsePath", "encoding/csv/decoder.go: fieldToScalar", "token/tokens.go: Scalar.Equal", "cmd/jp/main.go: main"]}
