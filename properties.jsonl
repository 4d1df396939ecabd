{"id": "C01", "title": "Simple8b compression is lossless", "statement": "Encoding a list of numbers with the Simple8b codec and decoding the resulting words with the same element count returns exactly the original list.", "quantifier": "every finite list of numbers below 2^60, of any length and content (any mixture of zero runs and large values)", "why_tests_cant": "the selector choice depends on every run of values; there are unboundedly many lists and zero-run/packing boundary combinations", "anchors": ["src/util/Simple8bCode.h: Simple8bCode::encode, decode"]}
{"id": "C02", "title": "Simple8b never overruns the caller's buffers", "statement": "Encoding n numbers never produces more than n code words, and decoding n numbers never writes 240 or more elements past the n requested ones, so the buffer sizes the text index uses on both sides are sufficient.", "quantifier": "every finite list of numbers below 2^60", "why_tests_cant": "memory safety for all lengths and all positions of zero runs relative to the end of the list cannot be enumerated", "anchors": ["src/util/Simple8bCode.h: encode, decode", "src/index/Index.Text.cpp: writeList, readGapComprList, readFreqComprList"]}
{"id": "C03", "title": "Stored text postings are read back unchanged", "statement": "A posting list (context ids, word ids, scores) written to the text index file is read back as exactly the same context ids, word ids and scores in the same order.", "quantifier": "every non-empty posting list with non-decreasing context ids and values representable in the format, every file position", "why_tests_cant": "gap encoding, frequency codebooks and Simple8b interact over unbounded lists", "anchors": ["src/index/Index.Text.cpp: writePostings, createCodebooks, writeList, readGapComprList, readFreqComprList"]}
{"id": "C04", "title": "Text search for several words returns exactly the common contexts", "statement": "Intersecting context lists for two or k words yields exactly the contexts occurring in all lists, with the entity postings and combined scores prescribed by the interface, in ascending order.", "quantifier": "every number of lists and all sorted lists of any length", "why_tests_cant": "unboundedly many list shapes; early-exit and k-way pointer logic only fails on particular interleavings", "anchors": ["src/index/FTSAlgorithms.cpp: intersect, intersectTwoPostingLists, intersectKWay"]}
{"id": "C05", "title": "Filtering postings by a word range keeps exactly the matching postings", "statement": "Filtering a posting list by a word-id range returns exactly the postings whose word id lies in the inclusive range, in order, with their contexts and scores.", "quantifier": "all posting lists and all ranges", "why_tests_cant": "must hold for every list and boundary", "anchors": ["src/index/FTSAlgorithms.cpp: filterByRange"]}
{"id": "C06", "title": "Text results are aggregated per entity correctly", "statement": "For every entity in the matching postings, the text operation reports exactly min(k, number of contexts) contexts with the highest scores together with the total number of matching contexts of that entity.", "quantifier": "all posting lists and all k", "why_tests_cant": "ties, limits and duplicates combine in unboundedly many ways", "anchors": ["src/index/FTSAlgorithms.cpp: aggScoresAndTakeTopKContexts, aggScoresAndTakeTopContext, getTopKByScores"]}
{"id": "C07", "title": "Joining two tables yields exactly the relational join", "statement": "The join of two tables sorted on their join columns contains, with the right multiplicity, one row for each pair of rows agreeing on the join column, composed of the left row followed by the right row without its join column, and nothing else; the result is again sorted on the join column.", "quantifier": "all pairs of sorted tables of any size, width and join columns", "why_tests_cant": "unbounded tables, duplicate runs on both sides and end-of-input conditions", "anchors": ["src/engine/Join.cpp: join, doComputeJoin..."]}
{"id": "C08", "title": "The join result does not depend on the size ratio of the inputs", "statement": "When one table is more than 1000 times larger than the other, the galloping join gives the same result as the ordinary merge join.", "quantifier": "all pairs of sorted tables of any size", "why_tests_cant": "the gallop path needs very large inputs and particular key positions; only a proof covers all positions", "anchors": ["src/engine/Join.cpp: doGallopInnerJoin"]}
{"id": "C09", "title": "OPTIONAL keeps every left row and extends it by all matches", "statement": "The optional join returns, for every left row, one combined row per matching right row, or the left row padded with the unbound value if there is none, and nothing else.", "quantifier": "all tables sorted on the join columns, any number of join columns", "why_tests_cant": "unbounded tables and match patterns", "anchors": ["src/engine/OptionalJoin.cpp: optionalJoin, createOptionalResult"]}
{"id": "C10", "title": "Multi-column joins compare all join columns", "statement": "A join over several columns returns exactly one combined row for every pair of rows that agree on all join columns.", "quantifier": "all lexicographically sorted tables and column lists", "why_tests_cant": "unbounded tables and column mappings", "anchors": ["src/engine/MultiColumnJoin.h: computeMultiColumnJoin"]}
{"id": "C11", "title": "MINUS removes exactly the rows with a match", "statement": "The result of MINUS consists of exactly those rows of the left table for which no right row agrees on all common columns, in their original order and multiplicity; with no common columns nothing is removed.", "quantifier": "all sorted tables and all column correspondences", "why_tests_cant": "unbounded tables", "anchors": ["src/engine/Minus.cpp: computeMinus"]}
{"id": "C12", "title": "UNION keeps all rows of both sides", "statement": "The union contains exactly the rows of the left input followed by the rows of the right input, with every column mapped to its variable and unbound values where a side lacks the variable; the declared column types agree with the side the column comes from.", "quantifier": "all inputs and column mappings", "why_tests_cant": "unbounded tables, mappings and chunk boundaries", "anchors": ["src/engine/Union.cpp: computeUnion, computeResult"]}
{"id": "C13", "title": "DISTINCT removes exactly the duplicates", "statement": "After DISTINCT on the chosen columns, no two rows agree on those columns, every row of the input is represented, and every output row is an input row.", "quantifier": "all tables sorted on the chosen columns", "why_tests_cant": "unbounded tables", "anchors": ["src/engine/Engine.h: distinct", "src/engine/Distinct.cpp"]}
{"id": "C14", "title": "GROUP BY aggregates every group over exactly its rows", "statement": "For a table sorted by the grouping columns, GROUP BY outputs exactly one row for each distinct grouping key, and each aggregate is computed over exactly the rows having this key; with no grouping columns there is a single group of all rows.", "quantifier": "all sorted tables, grouping columns and aggregates (count, sum, min, max, average, sample, with and without DISTINCT)", "why_tests_cant": "group boundaries can fall anywhere in unbounded inputs", "anchors": ["src/engine/GroupBy.cpp: doGroupBy, processGroup"]}
{"id": "C15", "title": "FILTER keeps exactly the rows satisfying the condition", "statement": "Filtering a table keeps exactly the rows satisfying the comparison, in order, whether or not the table is sorted by the filtered column (the binary-search shortcut gives the same result as checking every row).", "quantifier": "all tables, columns, comparison operators and bounds", "why_tests_cant": "the shortcut for sorted inputs must agree with the general path for every data distribution", "anchors": ["src/engine/Filter.cpp: computeFilter, computeFilterRange, computeFilterFixedValue"]}
{"id": "C16", "title": "Property paths return exactly the reachable pairs", "statement": "A transitive path with distance bounds min and max returns a pair (x,y) exactly if there is a path of a length between min and max from x to y.", "quantifier": "all finite edge relations (including cycles), all bounds", "why_tests_cant": "graphs are unbounded and cyclic; depth-first search with marks only errs on specific shapes", "anchors": ["src/engine/TransitivePath.cpp: computeTransitivePath, computeTransitivePathLeftBound, computeTransitivePathRightBound"]}
{"id": "C17", "title": "ql:has-predicate returns exactly the predicates of each entity", "statement": "The has-predicate scans return exactly the pairs (entity, predicate) given by the entity's pattern or its explicit predicate list, for fixed entity, fixed predicate, full scan and for entities coming from a subquery.", "quantifier": "all pattern tables, entities and subquery results", "why_tests_cant": "unbounded pattern tables and id distributions", "anchors": ["src/engine/HasPredicateScan.cpp: computeFreeS, computeFreeO, computeFullScan, computeSubqueryS"]}
{"id": "C18", "title": "Predicate counts are exact", "statement": "Counting available predicates returns for every predicate the number of distinct input entities having it, and lists exactly the predicates with a non-zero count.", "quantifier": "all inputs sorted by entity, all pattern tables", "why_tests_cant": "unbounded inputs", "anchors": ["src/engine/CountAvailablePredicates.cpp: computePatternTrick, computePatternTrickAllEntities"]}
{"id": "C19", "title": "The cache never exceeds its limits and never loses pinned entries", "statement": "After any sequence of cache operations the total number of entries does not exceed the configured maximum unless pinned entries alone do, the accounted size equals the sum of the sizes of the stored values, and a pinned entry is only removed by an operation that explicitly drops pinned entries.", "quantifier": "all finite histories of insert, pin, lookup, resize and clear operations", "why_tests_cant": "histories are unbounded and eviction interacts with pinning", "anchors": ["src/util/Cache.h: FlexibleCache"]}
{"id": "C20", "title": "The cache returns what was stored", "statement": "Looking up a key returns the value most recently inserted under that key if it has not been evicted or cleared, and nothing else; inserting a key twice is rejected.", "quantifier": "all finite operation histories", "why_tests_cant": "unbounded histories with eviction", "anchors": ["src/util/Cache.h: FlexibleCache::operator[], insert, insertPinned, contains"]}
{"id": "C21", "title": "Eviction removes the least recently used entries first", "statement": "When the cache must shrink, the unpinned entry whose last use is oldest is evicted first.", "quantifier": "all finite histories with non-decreasing clocks", "why_tests_cant": "depends on the whole access history and lazily updated heap entries", "anchors": ["src/util/Cache.h: shrinkToFit", "src/util/PriorityQueue.h: HeapBasedPQ::insert, updateKey, pop"]}
{"id": "C22", "title": "Concurrent requests for one key compute it once and all see the same result", "statement": "In any interleaving of threads asking the concurrent cache for results, at most one computation per key is running at a time, every caller obtains the value of a successful computation for its key or an error, and no waiting caller is left waiting once the computation it waits for has ended.", "quantifier": "all numbers of threads and keys and all interleavings", "why_tests_cant": "schedules are unbounded; races cannot be covered by tests", "anchors": ["src/util/ConcurrentCache.h: computeOnceImpl, ResultInProgress"]}
{"id": "C23", "title": "A failed computation leaves no trace in the concurrent cache", "statement": "If a computation throws, every waiting caller gets an error, the key is neither cached nor marked as in progress, and a later request computes it again; a request for a pinned result joined to a running computation makes the result pinned.", "quantifier": "all interleavings and failure points", "why_tests_cant": "schedules and failure points are unbounded", "anchors": ["src/util/ConcurrentCache.h: computeOnceImpl, moveFromInProgressToCache"]}
{"id": "C24", "title": "The memory limit is never exceeded and all memory is returned", "statement": "At any time the sum of the sizes of live allocations plus the amount left equals the configured limit; an allocation is refused exactly if it would exceed the limit; after all allocations are released the full limit is available again.", "quantifier": "all interleavings of allocations and deallocations from any number of threads", "why_tests_cant": "unbounded histories and schedules", "anchors": ["src/util/AllocatorWithLimit.h: AllocatorWithLimit, AllocationMemoryLeft"]}
{"id": "C25", "title": "Scanning the index returns exactly the stored triples", "statement": "For each permutation, scanning for a fixed first component returns exactly the sorted list of pairs of the remaining components of the distinct indexed triples, and scanning for fixed first and second components returns exactly the sorted list of matching third components, whether the relation is stored with or without blocks.", "quantifier": "all finite sets of triples and all keys", "why_tests_cant": "block boundaries, relation sizes and key positions are unbounded", "anchors": ["src/index/Index.cpp: createPermutationPairImpl, writeRel, writeNonFunctionalRelation, scanNonFunctionalRelation", "src/index/Index.h: scan", "src/index/MetaDataTypes.cpp: getBlockStartAndNofBytesForLhs, getFollowBlockForLhs"]}
{"id": "C26", "title": "Index metadata survives a restart", "statement": "Writing the metadata of a permutation to disk and reading it back gives the same relations, blocks, offsets and statistics, for both storage variants.", "quantifier": "all metadata contents", "why_tests_cant": "unbounded numbers of relations and blocks", "anchors": ["src/index/IndexMetaDataImpl.h: operator<<, createFromByteBuffer", "src/index/MetaDataTypes.cpp"]}
{"id": "C27", "title": "Packed relation statistics do not disturb each other", "statement": "The element count, the functional and has-blocks flags and both multiplicities that are packed into one machine word can be set in any order and are each read back as set.", "quantifier": "all values below 2^40 and all orders of setter calls", "why_tests_cant": "bit-level interference for all values", "anchors": ["src/index/MetaDataTypes.cpp: FullRelationMetaData setters and getters", "src/index/MetaDataTypes.h"]}
{"id": "C28", "title": "Entity patterns describe exactly the entities' predicates", "statement": "After index building, the predicates recorded for an entity (by its pattern or its explicit list) are exactly the distinct predicates of the triples having it as subject, excluding language-tag predicates.", "quantifier": "all sorted triple lists and pattern limits", "why_tests_cant": "unbounded data; pattern frequency cut-off", "anchors": ["src/index/Index.cpp: createPatternsImpl"]}
{"id": "C29", "title": "Vocabulary compression is lossless", "statement": "Compressing a word with any set of prefixes and expanding it returns the word, also after the prefixes and the compressed vocabulary were stored on disk and loaded again.", "quantifier": "all words and all prefix lists, including overlapping and more than the supported number of prefixes", "why_tests_cant": "unbounded words and prefix sets", "anchors": ["src/index/Vocabulary.cpp: compressPrefix, expandPrefix, initializePrefixes, prefixCompressFile, readFromFile", "src/index/Index.cpp: createFromFile, readConfiguration"]}
{"id": "C30", "title": "Looking up a word finds its id exactly if the word exists", "statement": "For a sorted vocabulary, looking up a word returns its unique position if it is contained and reports failure otherwise; mapping ids to words and back are inverse to each other, for in-memory and on-disk words.", "quantifier": "all sorted vocabularies and all words", "why_tests_cant": "boundary positions in unbounded vocabularies", "anchors": ["src/index/Vocabulary.cpp: getId, lower_bound, idToOptionalString", "src/index/ExternalVocabulary.cpp: binarySearchInVocab"]}
{"id": "C31", "title": "Merging partial vocabularies assigns one id per word in order", "statement": "Merging any number of sorted partial vocabularies gives every distinct word exactly one global id, ids increase in the order of words, equal words from different parts get the same id, and the mapping files translate each local id to the global id of its word.", "quantifier": "all numbers and contents of partial vocabularies, all batch sizes", "why_tests_cant": "merge interleavings and batch boundaries are unbounded", "anchors": ["src/index/VocabularyGeneratorImpl.h: mergeVocabulary, writeQueueWordsToIdVec, createInternalMapping"]}
{"id": "C32", "title": "Index building preserves every triple", "statement": "The triple stored in the index for an input triple consists of the global ids of its three words, i.e. translating the stored ids back through the vocabulary gives the input triple.", "quantifier": "all inputs and all splits into partial vocabularies", "why_tests_cant": "unbounded inputs and batch splits", "anchors": ["src/index/Index.cpp: convertPartialToGlobalIds, writeNextPartialVocabulary", "src/index/IndexBuilderTypes.h: ItemMapManager, getIdMapLambdas"]}
{"id": "C33", "title": "Escaping newlines and backslashes is reversible", "statement": "Escaping a string for line-based storage yields a string without newlines, and unescaping it returns the original.", "quantifier": "all byte strings", "why_tests_cant": "unbounded strings", "anchors": ["src/parser/RdfEscaping.cpp: escapeNewlinesAndBackslashes, unescapeNewlinesAndBackslashes"]}
{"id": "C34", "title": "The parallel pipeline keeps order and loses nothing", "statement": "A batched parallel pipeline delivers exactly the transformed input values in input order and then ends, independently of batch size, degree of parallelism and thread scheduling.", "quantifier": "all inputs, batch sizes, parallelism degrees, numbers of stages and schedules", "why_tests_cant": "unbounded inputs and schedules", "anchors": ["src/util/BatchedPipeline.h: Batcher, BatchedPipeline"]}
{"id": "C35", "title": "Disk-backed vectors behave like ordinary vectors and persist", "statement": "Memory-mapped and buffered vectors behave like a plain list under push_back, resize, element assignment and clear, and a closed memory-mapped vector that is opened again contains the same elements.", "quantifier": "all finite operation histories and thresholds", "why_tests_cant": "unbounded histories and capacity changes", "anchors": ["src/util/MmapVector.h", "src/util/MmapVectorImpl.h", "src/util/BufferedVector.h"]}
{"id": "C36", "title": "Numeric literals sort by value in the index", "statement": "The index representations of two numeric literals compare as strings in the same order as the numbers compare by value, and converting back gives the number.", "quantifier": "all supported integer and decimal literals, positive, negative and zero", "why_tests_cant": "unboundedly many literals and digit counts", "anchors": ["src/util/Conversions.h: convertFloatStringToIndexWord, convertIndexWordToFloatString"]}
{"id": "C37", "title": "Date literals sort chronologically in the index", "statement": "The index representations of two dates compare as strings in chronological order, including negative years.", "quantifier": "all dates with supported year lengths", "why_tests_cant": "unboundedly many dates", "anchors": ["src/util/Conversions.h: normalizeDate, convertDateToIndexWord"]}
{"id": "C38", "title": "Equal cache keys mean equal results", "statement": "Two operations with the same textual cache key compute the same result, so that answering a query from the cache is correct.", "quantifier": "all operation trees of the modelled operation kinds", "why_tests_cant": "pairs of unbounded operation trees", "anchors": ["src/engine/*.cpp: asString", "src/engine/Operation.cpp: getResult"]}
{"id": "C39", "title": "Splitting and joining strings are inverse", "statement": "Splitting a string at a separator and joining the parts with it returns the string, no part contains the separator, and splitting at whitespace or at any of several characters returns exactly the maximal separator-free pieces.", "quantifier": "all strings and separators", "why_tests_cant": "unbounded strings", "anchors": ["src/util/StringUtils.h: split, splitWs, splitAny, join"]}
{"id": "C40", "title": "Packed string lists return their elements", "statement": "A compact vector of strings built from a list returns each element unchanged, also after being written to and read from disk.", "quantifier": "all lists of lists", "why_tests_cant": "unbounded data", "anchors": ["src/global/Pattern.h: CompactStringVector"]}
{"id": "C41", "title": "Two-column joins filter exactly", "statement": "A join on two columns where one side is a plain two-column relation returns exactly the rows of the other side whose pair occurs in the relation.", "quantifier": "all sorted inputs", "why_tests_cant": "unbounded inputs", "anchors": ["src/engine/Engine.h: filter", "src/engine/TwoColumnJoin.cpp"]}
{"id": "C42", "title": "Text index lookup finds the block of a word or entity", "statement": "After loading the text index metadata, the block returned for a word range contains all postings of this range and the block returned for an entity is the entity's block.", "quantifier": "all sequences of word and entity blocks", "why_tests_cant": "unbounded block lists and id overlaps between words and entities", "anchors": ["src/index/TextMetaData.cpp: createFromByteBuffer, getBlockInfoByWordRange, getBlockInfoByEntityId"]}
{"id": "C43", "title": "The claimed sort order of an operation's result is true", "statement": "If an operation reports its result as sorted on given columns, the rows of its result are sorted lexicographically by them.", "quantifier": "all inputs of the modelled operations", "why_tests_cant": "merge joins rely on it for every input", "anchors": ["src/engine/OrderBy.cpp: resultSortedOn", "src/engine/Sort.cpp", "src/engine/Join.cpp: resultSortedOn", "src/engine/Union.cpp: resultSortedOn"]}
{"id": "C44", "title": "Document excerpts are returned for the right record", "statement": "The excerpt returned for a text record id is the text stored for the document that contains this record.", "quantifier": "all document files", "why_tests_cant": "unbounded documents and id gaps", "anchors": ["src/index/Index.Text.cpp: buildDocsDB", "src/index/DocsDB.cpp: getTextExcerpt"]}
{"id": "C45", "title": "URL decoding inverts percent-encoding", "statement": "Decoding a percent-encoded query returns the original byte string, and text without escapes is unchanged except that plus becomes a space.", "quantifier": "all byte strings", "why_tests_cant": "unbounded strings", "anchors": ["src/util/StringUtils.h: decodeUrl"]}
{"id": "C46", "title": "Every variable is read from the column that holds it", "statement": "The mapping from variables to columns that an operation reports describes its result: the value of a variable in a result row, read through the reported mapping, is the value the variable has in the input row(s) the result row comes from.", "quantifier": "all operations of the modelled kinds, all inputs and column layouts", "why_tests_cant": "the mapping depends on hash-map iteration order and on all column layouts", "anchors": ["src/engine/Join.cpp: getVariableColumns", "src/engine/MultiColumnJoin.cpp: getVariableColumns", "src/engine/OptionalJoin.cpp: getVariableColumns", "src/engine/Union.cpp: getVariableColumns"]}
{"id": "C47", "title": "A result table behaves like a list of rows", "statement": "Appending, inserting, erasing, reserving, resizing and assigning rows of a result table have the effect of the corresponding list operations, for any number of columns and independently of when the underlying storage grows, and never access memory outside the storage.", "quantifier": "all finite operation histories and numbers of columns", "why_tests_cant": "unbounded histories and growth points", "anchors": ["src/engine/IdTable.h: IdTableStatic"]}
{"id": "C48", "title": "ORDER BY returns the input in the requested order", "statement": "The result of ORDER BY or of an internal sort is a rearrangement of the rows of the input in which consecutive rows are in the order requested by the keys and directions.", "quantifier": "all tables, keys and directions", "why_tests_cant": "unbounded tables", "anchors": ["src/engine/OrderBy.cpp: computeResult", "src/engine/Sort.cpp: computeResult", "src/engine/Engine.h: sort"]}
{"id": "C49", "title": "All HAVING conditions are applied", "statement": "The result of a query with several HAVING conditions contains exactly those groups that satisfy all of them.", "quantifier": "all lists of HAVING conditions and all grouped tables", "why_tests_cant": "unbounded condition lists and tables", "anchors": ["src/engine/QueryPlanner.cpp: getHavingRow"]}
{"id": "C50", "title": "A text search returns the occurrences of its words and entities", "statement": "For every text, the context file is collected, sorted, written to the text index and loaded such that the postings returned for a word, prefix or entity are its occurrences with their scores, the entities returned for a term are those of the contexts it occurs in, and a search with several terms returns exactly the contexts with all of them.", "quantifier": "all texts, block boundaries and search terms", "why_tests_cant": "unbounded texts, and the interplay of collecting, sorting, compression, metadata and intersection", "anchors": ["src/index/Index.Text.cpp: passContextFileIntoVector, addContextToVector, createTextIndex, getWordPostingsForTerm, getEntityPostingsForTerm, getContextEntityScoreListsForWords, getContextListForWords"]}
{"id": "C51", "title": "Escape sequences in literals and IRIs are decoded", "statement": "A literal or IRI written with string escapes or numeric escapes denotes, after parsing, the characters the escapes stand for, encoded in UTF-8; the end of a literal is its first quote that is not escaped, and everything that is not a valid escape sequence is rejected.", "quantifier": "all byte strings", "why_tests_cant": "unbounded strings and all combinations of escape sequences", "anchors": ["src/parser/RdfEscaping.cpp: unescapeStringAndNumericEscapes, normalizeRDFLiteral, unescapeIriref, unescapePrefixedIri, hexadecimalCharactersToUtf8", "src/util/StringUtils.h: findLiteralEnd"]}
{"id": "C52", "title": "The vocabulary order is a total order that searches agree with", "statement": "Comparing words by the configured collation is a total preorder at every level, at the finest level different words never compare equal, finer levels refine coarser ones, precomputed sort keys compare like the words, and searching a bound or the range of a prefix in a sorted vocabulary returns exactly the words concerned.", "quantifier": "all words, collation levels and sorted vocabularies", "why_tests_cant": "unboundedly many pairs of words; depends on literals, language tags and collation together", "anchors": ["src/index/StringSortComparator.h: TripleComponentComparator, LocaleManager, SimpleStringComparator", "src/index/Vocabulary.cpp: lower_bound, upper_bound, getIdRangeForFullTextPrefix, prefix_range"]}
{"id": "C53", "title": "The prefix computation succeeds and returns real common prefixes", "statement": "For a vocabulary in byte order the computation of compression prefixes ends normally and returns at most the requested number of different non-empty prefixes, each of them shared by two neighbouring words.", "quantifier": "all sorted vocabularies and numbers of prefixes", "why_tests_cant": "unbounded vocabularies; the tree is restructured while it is built", "anchors": ["src/index/PrefixHeuristic.cpp: calculatePrefixes, TreeNode, Tree"]}
{"id": "C54", "title": "A Turtle document is parsed to its triples", "statement": "Parsing a Turtle document ends for every input; a document of the supported grammar is consumed completely and yields exactly the triples it denotes, in the order of the text, with prefixes expanded, escapes decoded and nodes without label named apart.", "quantifier": "all byte sequences; all documents of the grammar, of any length and nesting depth", "why_tests_cant": "unboundedly many documents, token boundaries and nestings", "anchors": ["src/parser/TurtleParser.cpp: turtleDoc, statement and everything called by it", "src/parser/TurtleParser.h", "src/parser/Tokenizer.h", "src/parser/Tokenizer.cpp"]}
{"id": "C55", "title": "Reading a Turtle file in blocks does not change its triples", "statement": "Reading a Turtle file block by block delivers exactly the triples of the file, wherever the block boundaries are, and each call ends.", "quantifier": "all documents and all divisions into blocks, all batch sizes", "why_tests_cant": "block boundaries can fall inside every token of unbounded documents; the parser is reset and parses again", "anchors": ["src/parser/TurtleParser.cpp: TurtleStreamParser::getLine, resetStateAndRead", "src/parser/TurtleParser.h: backupState", "src/parser/ParallelBuffer.h"]}
{"id": "C56", "title": "Reading a memory-mapped Turtle file delivers its triples", "statement": "The parser for memory-mapped Turtle files delivers the triples of every statement of the file and then reports the end.", "quantifier": "all documents", "why_tests_cant": "unboundedly many documents", "anchors": ["src/parser/TurtleParser.cpp: TurtleMmapParser::getLine"]}
{"id": "C57", "title": "Every line of an N-Triples file gives its three terms", "statement": "Reading an N-Triples file returns, for every line and in order, exactly the subject, predicate and object of the line.", "quantifier": "all files of N-Triples lines", "why_tests_cant": "unboundedly many lines, terms and blanks, and escapes inside literals", "anchors": ["src/parser/NTriplesParser.cpp: getLine"]}
{"id": "C58", "title": "Every line of a TSV file gives its three fields", "statement": "Reading a tab-separated file returns, for every line and in order, exactly its first three fields.", "quantifier": "all files of lines with three fields", "why_tests_cant": "unbounded fields; positions and size_t arithmetic", "anchors": ["src/parser/TsvParser.cpp: getLine"]}
{"id": "C59", "title": "Every line of the context file gives its posting", "statement": "Reading a context file returns, for every line and in order, the word (in lower case unless it is an entity), whether it is an entity, the context id and the score.", "quantifier": "all context files of well-formed lines", "why_tests_cant": "unbounded words and numbers; positions and size_t arithmetic", "anchors": ["src/parser/ContextFileParser.cpp: getLine"]}
{"id": "C60", "title": "The text of a property path is understood as the grammar says", "statement": "The text of a property path is parsed to the path that the grammar derives; every other text is rejected with an exception; the flag for paths that can be empty is exact.", "quantifier": "all texts, all nestings of the operators", "why_tests_cant": "unbounded nesting, escapes, counts and delimiters in a row", "anchors": ["src/parser/PropertyPathParser.cpp: tokenize, parse", "src/parser/ParsedQuery.cpp: PropertyPath::computeCanBeNull"]}
{"id": "C61", "title": "A property path finds exactly the pairs it connects", "statement": "The graph pattern made for a triple with a property path has, restricted to the variables of the query, exactly the solutions that give subject and object values connected by the path.", "quantifier": "all graphs, all paths, all terms", "why_tests_cant": "unbounded graphs, nestings of paths and numbers of parts that can be empty", "anchors": ["src/engine/QueryPlanner.cpp: seedFromPropertyPath, seedFromSequence, seedFromAlternative, seedFromTransitive, seedFromInverse, uniteGraphPatterns"]}
{"id": "C62", "title": "The plan of a basic graph pattern computes exactly its answers", "statement": "Whatever the cost estimates are, the execution tree that the planner chooses for a basic graph pattern with filters computes every solution of the pattern that passes the filters, exactly once, and nothing else.", "quantifier": "all patterns, filters, graphs, cost estimates and iteration orders of hash maps", "why_tests_cant": "unboundedly many patterns; exponentially many plans of which cost estimates select one", "anchors": ["src/engine/QueryPlanner.cpp: createTripleGraph, seedWithScansAndText, merge, createJoinCandidates, connected, getJoinColumns, getPruningKey, applyFiltersIfPossible, fillDpTab, findCheapestExecutionTree", "src/engine/Join.cpp: Join::Join, computeVariableColumns, resultSortedOn", "src/engine/TwoColumnJoin.cpp: TwoColumnJoin::TwoColumnJoin, computeVariableColumns, resultSortedOn", "src/engine/MultiColumnJoin.cpp: MultiColumnJoin::MultiColumnJoin, computeVariableColumns, resultSortedOn"]}
{"id": "C63", "title": "Planning ends with a plan for every pattern that has one", "statement": "Planning a graph pattern ends with a plan or an exception and without undefined behaviour; a pattern that is connected by its variables gets a plan that can be executed.", "quantifier": "all patterns, filters and nested patterns, all cost estimates", "why_tests_cant": "unbounded numbers of triples and filters; the table grows exponentially", "anchors": ["src/engine/QueryPlanner.cpp: fillDpTab, seedWithScansAndText, applyFiltersIfPossible, connected, createJoinCandidates"]}
{"id": "C64", "title": "A query is split into the tokens it is written with", "statement": "A text that consists of tokens of the SPARQL grammar, in any case, with white space and comments between them, is split into exactly these tokens, with their kinds and with the escape sequences of literals replaced; reading a token always comes to an end.", "quantifier": "all texts and sequences of tokens, all white space and comments between them", "why_tests_cant": "unbounded texts; every pair of adjacent tokens and every order of the expressions matters", "anchors": ["src/parser/SparqlLexer.cpp: readNext, RE_KEYWORD, RE_IRI, RE_RDFLITERAL, RE_VARIABLE, RE_SYMBOL, expect", "src/parser/SparqlLexer.h: SparqlToken"]}
{"id": "C65", "title": "A query is parsed to what it stands for", "statement": "A text of the SPARQL grammar is parsed to the query it stands for: prefixes, selected variables and aliases, triples with their abbreviations and property paths, OPTIONAL, MINUS, UNION, VALUES, BIND, subqueries, filters, and what follows the pattern; a text with a syntax error is rejected; the parser always comes to an end.", "quantifier": "all query texts, with any nesting, any number of triples, filters and clauses, any white space and comments", "why_tests_cant": "unbounded nesting and combination of constructs; the parser looks at one token and has state between them", "anchors": ["src/parser/SparqlParser.cpp: parse, parseQuery, parseSelect, parseWhere, parseFilter, parseRegexFilter, parseSolutionModifiers, parseAlias", "src/parser/ParsedQuery.h: OrderKey, SparqlTriple"]}
{"id": "C66", "title": "A regular expression is replaced by a prefix test only if it is one", "statement": "A filter with a regular expression is turned into a test for a prefix exactly if the expression is `^` followed by literal characters, and then for these characters with their escapes removed; every other expression is kept.", "quantifier": "all expressions", "why_tests_cant": "unbounded expressions; every sequence of escapes and operators", "anchors": ["src/parser/SparqlParser.cpp: parseRegexFilter"]}
{"id": "C67", "title": "Literals in queries keep their value", "statement": "A literal in a triple pattern or an assignment of a query reaches the engine with the value, language tag and datatype it has in the query.", "quantifier": "all literals", "why_tests_cant": "unbounded contents; quotes and backslashes in any place", "anchors": ["src/parser/SparqlParser.cpp: parseLiteral"]}
{"id": "C68", "title": "Prefixed names are expanded", "statement": "Every prefixed name in a query is replaced by the IRI it stands for, which is the IRI of the last declaration of its prefix followed by the name with its escapes removed; nothing else in the query is changed.", "quantifier": "all queries with all prefix declarations", "why_tests_cant": "unbounded queries and names; names at every place of a query, literals that look like names", "anchors": ["src/parser/ParsedQuery.cpp: expandPrefix, expandPrefixes"]}
{"id": "C69", "title": "Results are written completely and can be read back", "statement": "The rows that are sent for a query are the rows of its result from OFFSET on, at most LIMIT many, in their order, each with one value for every selected variable, and from CSV or TSV the values can be read back.", "quantifier": "all result tables, selections, LIMIT and OFFSET", "why_tests_cant": "unbounded tables; every combination of limits, unbound values and values with separators", "anchors": ["src/engine/QueryExecutionTree.cpp: writeResultToStream, writeResultAsJson, writeJsonTable, writeTable", "src/engine/Server.cpp: composeResponseJson, composeResponseSepValues"]}
{"id": "C70", "title": "Requests arrive as they were sent", "statement": "A request for parameters is understood as the parameters that the client has encoded in it, however the network splits it into packets, every request is answered, and an answer is sent completely and in order.", "quantifier": "all requests, all ways to split them, all sequences of partial sends", "why_tests_cant": "unbounded requests; every split into packets, every encoding", "anchors": ["src/engine/Server.cpp: process, parseHttpRequest, createQueryFromHttpParams", "src/util/Socket.h: send, getHTTPRequest"]}
{"id": "C71", "title": "VALUES gives its rows", "statement": "A VALUES clause gives exactly its rows as solutions, each as often as it is there, with the values of its variables; a clause is refused only if its rows have the wrong length or no value.", "quantifier": "all clauses with any number of variables and rows, all vocabularies", "why_tests_cant": "unbounded clauses; every pattern of UNDEF and of words that are not in the vocabulary", "anchors": ["src/engine/Values.cpp: Values, getVariableColumns, computeResult, sanitizeValues, writeValues"]}
{"id": "C72", "title": "BIND adds the value of its expression", "statement": "BIND extends every solution by one variable and changes nothing else; the variable has the value of the other variable, of the constant, or of the arithmetic expression, or is not a number if there is none.", "quantifier": "all tables, all types of columns, all pairs of numbers", "why_tests_cant": "unbounded tables; every pair of floats, the borders of exact arithmetic", "anchors": ["src/engine/Bind.cpp: getVariableColumns, computeResult, computeBinaryOperationBind, computeRenameBind, computeConstantBind"]}
{"id": "C73", "title": "A group pattern gives its solutions", "statement": "The plan for a WHERE clause gives exactly the solutions that SPARQL defines for it, each as often as it is one: the parts of every group are joined in their order with OPTIONAL, MINUS, UNION, VALUES, BIND and subqueries, and the filters of a group apply to the whole group.", "quantifier": "all patterns with any nesting and any order of parts, all graphs, all filters", "why_tests_cant": "unbounded nesting and combination of operators; every order of parts matters", "anchors": ["src/engine/QueryPlanner.cpp: optimize, createExecutionTree, getDistinctRow, applyFiltersIfPossible"]}
{"id": "C74", "title": "Counting predicates with patterns gives the counts of the query", "statement": "A query that counts, for every predicate, the solutions of a pattern with ?x ql:has-predicate ?p grouped by ?p gets one row for every predicate that occurs in a solution, with the number of solutions, no matter that the code takes the triple out of the query and counts with the stored patterns instead.", "quantifier": "all queries that checkUsePatternTrick accepts, all graphs and pattern indexes", "why_tests_cant": "the rewriting removes a triple from an arbitrary query; every combination of other parts and filters can interact with it", "anchors": ["src/engine/QueryPlanner.cpp: checkUsePatternTrick, getPatternTrickRow, getHavingRow, createExecutionTree", "src/engine/CountAvailablePredicates.cpp: computeResult"]}
{"id": "C75", "title": "The modifiers of a query give its answer", "statement": "The result of a query with GROUP BY, HAVING, SELECT DISTINCT and ORDER BY in any combination is what these make of the solutions of the WHERE clause one after the other: one solution per group, only those for which all conditions hold, no two that show the same, in the requested order; also when it is a subquery whose claimed order the outer query uses to leave out sorting.", "quantifier": "all inputs, all sets of modifiers, every result a sort may give", "why_tests_cant": "the steps interact through claimed sort orders; a wrong claim shows only in particular combinations", "anchors": ["src/engine/QueryPlanner.cpp: createExecutionTree, getGroupByRow, getHavingRow, getDistinctRow, getOrderByRow", "src/engine/OrderBy.cpp: resultSortedOn", "src/engine/GroupBy.cpp: resultSortedOn"]}
{"id": "C76", "title": "A text operation filtered by another operand gives the join of the two", "statement": "The columns reported for a text operation hold the text record, its score and the entities of the record. Turning the join of a text operation with another operand into a text operation with a filter does not change the bag of solutions: every variable has the value it has in the join.", "quantifier": "for all sets of variables, postings, limits, filter tables and column assignments", "why_tests_cant": "The query planner chooses between the two forms by cost, so tests on small data see only one of them; the layouts of the rows depend on the number of variables and columns", "anchors": ["src/engine/TextOperationWithoutFilter.cpp", "src/engine/TextOperationWithFilter.cpp", "src/index/Index.Text.cpp:697-793", "src/engine/QueryPlanner.cpp:2887-2920"]}
{"id": "C77", "title": "An operation that is declared empty without being computed is empty", "statement": "If an operation says that its result is known to be empty (from its size estimate, its inputs or a cached result), computing it gives no rows, whatever operations the tree consists of. So a join that does not compute its other input, or that takes results from the cache, gives the result that it has without these shortcuts. The size estimate of an index scan is the number of its rows.", "quantifier": "for all operation trees, indexes, text indexes, caches with correct results and stored sizes", "why_tests_cant": "Each operation has its own rule for when it is known to be empty; the rules are only used together, in trees of any shape and with any state of the cache", "anchors": ["src/engine/QueryExecutionTree.cpp:175-180", "src/engine/Join.cpp:60-110", "src/engine/IndexScan.cpp:306-332", "src/index/Index.cpp:1202-1263", "src/index/Index.Text.cpp:1155-1203", "src/index/Index.Text.cpp:1372-1403"]}
{"id": "C78", "title": "Text triples about the same record are answered together", "statement": "The triples of a group pattern become a graph with an edge between two triples exactly if they share a variable. All text triples (contains-word, contains-entity) about the same text record are collapsed into one node; every triple is in exactly one node, two nodes are connected exactly if they share a variable, whatever the iteration order of the hash map is. The text operation of such a node returns text records with entities that satisfy all its triples, and all of them if there are not more records for the entities than the limit.", "quantifier": "all triple lists, all iteration orders of the hash map, all text corpora and indexes built from them, all look-ups and limits", "why_tests_cant": "Tests check a few queries and the order of the hash map is whatever the build gives; a lost edge or a lost triple only shows as a wrong answer for particular query shapes.", "anchors": ["src/engine/QueryPlanner.cpp:1123-1151", "src/engine/QueryPlanner.cpp:2284-2307", "src/engine/QueryPlanner.cpp:2495-2600", "src/engine/QueryPlanner.cpp:1826-1841", "src/engine/QueryPlanner.h:29-92"]}
{"id": "C79", "title": "Queries to an index give the answers over the triples it was built from", "statement": "An index is built from a list of parsed triples (vocabulary, six permutation files, compressed words, words on disk), and loaded again. A scan for one or two constants then returns, shown as words, the rest of every input triple with these constants, each once. A query with a group of triple patterns and filters returns, shown as words, exactly the assignments of words to variables under which every pattern is an input triple and every filter holds, each once, whatever plan is chosen.", "quantifier": "all lists of triples, all sizes of the parts, maps, buffers and blocks, all locales, all prefixes, all queries and all plans", "why_tests_cant": "Each stage is tested on its own with hand-written files; that the ids, the orders and the file layouts of the stages fit together for every input and every plan is beyond a finite set of end-to-end tests.", "anchors": ["src/index/Index.cpp:62-126", "src/index/Index.cpp:985-998", "src/index/Index.h:376-465", "src/index/Vocabulary.h:370-381", "src/engine/IndexScan.cpp:223-381", "src/engine/Join.cpp:276-401"]}
{"id": "C80", "title": "The time limit of a query", "statement": "All operations of a plan share the timer of the query. With a limit, a query whose result is not cached only returns a result if the last look at the clock came before the limit was over (not counting the looks themselves), it is only aborted for its time if the limit has passed or a sort is expected to take more than three times the rest, and its result is that of the same computation without a limit. Without a limit a query is never aborted for its time. Operations that count their work look at the timer once per n units.", "quantifier": "all plans, all caches, all clocks that do not go back, all limits, all sequences of portions of work", "why_tests_cant": "Whether an abort can come too early, or never, depends on the interleaving of clock readings with stop and continue of a shared timer in a whole tree of operations; tests use a few durations on single operations.", "anchors": ["src/util/Timer.h:23-188", "src/engine/Operation.cpp:47-144", "src/engine/Operation.h:143-155", "src/engine/Sort.cpp:56-69", "src/engine/OrderBy.cpp:81-94", "src/engine/Server.cpp:175-219"]}
{"id": "C81", "title": "The runtime information names the columns and splits the time", "statement": "The runtime information that is returned with an answer names, for each operation, the variable of each column of its result, for results in which each column has one variable, as all operations produce them. It has the size, the width and the description of the result, and the children whose results were used. The operation times of all computations that were done add up to the total time, and none is negative.", "quantifier": "all mappings of variables, all trees of operations, all times, results computed or taken from the cache", "why_tests_cant": "Tests look at the information of hand-made trees; that every write of a column name stays inside the vector and that the times add up depends on the maps and the cache states of all operations.", "anchors": ["src/engine/RuntimeInformation.h:14-181", "src/engine/Operation.h:162-192", "src/engine/Operation.cpp:91-114", "src/engine/Values.cpp:79-85", "src/engine/TransitivePath.cpp:36-37"]}
{"id": "C82", "title": "The response to a query is made of its answers", "statement": "The server responds to the text of a SELECT query, whose pattern consists of triples with variables, IRIs, prefixed names and literals and of FILTER conditions that compare a variable with a variable or a constant, with the answers over the triples from which the index was built that meet the conditions: there is a list of answers (without DISTINCT all of them, each once; with DISTINCT one for every combination of values of the selected variables), in the order that ORDER BY asks for, where words are ordered by the locale and those on disk come last, such that the rows of the response are, from OFFSET on and at most LIMIT and as many as the request asks for, the values of the selected variables, as they are displayed; an export as CSV or TSV has the same rows as lines, without the bound of the request.", "quantifier": "all triples, all indexes built from them, all texts of such queries, all plans the planner can choose (patterns of any shape whose joins are on one column, or whose inputs are sorted as the join expects), all executions, all numbers of rows", "why_tests_cant": "A response is made by lexer, parser, prefixes, planner, scans of six permutations, joins, vocabulary and the writer of the rows together; end-to-end tests compare a few dozen queries on one data set.", "anchors": ["src/engine/Server.cpp:205-237", "src/engine/Server.cpp:389-402", "src/engine/Server.cpp:412-427", "src/engine/QueryPlanner.cpp:37-104", "src/engine/QueryPlanner.cpp:1182-1475", "src/engine/IndexScan.h:48-54", "src/parser/SparqlParser.cpp:32-60", "src/engine/QueryExecutionTree.cpp:119-144", "src/engine/Filter.cpp:135-185", "src/engine/Filter.cpp:622-771"]}
{"id": "C83", "title": "Index scans list the triples that have the constants of a triple pattern", "statement": "For a triple pattern whose predicate is an IRI or a variable, every index scan that the planner makes gives a result that is as wide, of the types and sorted as the operation says, whose rows are, as words, those of the triples of the input that have the constants of the pattern (the object as it is stored) in their places, each once, and the word at the place of each variable is in the column that the planner set for the variable, which is also the one that the operation names.", "quantifier": "all triple patterns with distinct variables, all fifteen types of scans, all indexes built from triples", "why_tests_cant": "There are fifteen types of scans, and for each the permutation, the order of the keys, the width, the sorting and two maps of variables to columns have to agree; tests look at some types on small indexes and do not compare the maps.", "anchors": ["src/engine/IndexScan.cpp:76-303", "src/engine/IndexScan.cpp:334-381", "src/engine/IndexScan.h:14-54", "src/engine/QueryPlanner.cpp:1182-1463"]}
{"id": "C84", "title": "Scans for ql:has-predicate list the words and their predicates", "statement": "For a triple pattern `s ql:has-predicate o` on an index built from triples, the scan that the planner makes gives a result that is as wide, typed and sorted as the operation says, whose rows are, as words, the subjects of the input with their predicates (without the internal predicates for languages) that agree with the constants of the pattern, each once, with the words for the variables in the columns of the variables; and the scan with a subtree by which the planner replaces a join with such a scan gives the rows of the join.", "quantifier": "all patterns, all indexes built from triples with fewer different sets of predicates than the limit, all sorted inputs of the replaced join", "why_tests_cant": "The result goes through the ids of the vocabulary, the bounds of the predicates for languages, the patterns and their lookup vectors; tests fill the vectors by hand and run one scan of each type.", "anchors": ["src/engine/HasPredicateScan.cpp:60-109", "src/engine/HasPredicateScan.cpp:203-470", "src/engine/QueryPlanner.cpp:1183-1203", "src/engine/QueryPlanner.cpp:1259-1275", "src/engine/QueryPlanner.cpp:2931-2988", "src/index/Index.cpp:556-867"]}
{"id": "C85", "title": "Converting an old index keeps its permutations", "statement": "MetaDataConverterMain turns each permutation file of an old index into one of the current version such that the bytes of the relations are the same, the new metadata can be read by the server and tells the same about every id (whether it has a relation, where it is, and its blocks) as before, the statistics are kept, or computed if the old version has none, and the configuration it writes can be read by the server.", "quantifier": "all permutations in all formats the reader knows (without and with magic number, with version; hash maps and vectors), all contents, sizes of files and configurations", "why_tests_cant": "Old formats are no longer written by any code that tests could call, and the copying in chunks of 1 GB needs files of that size; the reader, the conversion and the writer must agree for all sets of relations.", "anchors": ["src/index/MetaDataConverter.cpp:19-233", "src/MetaDataConverterMain.cpp:21-52", "src/index/IndexMetaDataImpl.h:42-114", "src/index/IndexMetaDataImpl.h:284-346", "src/index/MetaDataHandler.h:93-249", "src/index/Index.cpp:1338-1389"]}
{"id": "C86", "title": "The planner is told how many triples there are", "statement": "The size estimate of an index scan with one or two constants is the number of rows of its result and the number of facts of the input with these constants in these places, that of a scan of the full index is the number of facts; the numbers of triples, subjects, predicates and objects reported for an index are those of the input; and the multiplicities of a scan of the full index are the numbers of facts per subject, predicate and object.", "quantifier": "all inputs for which an index can be built and all index scans on it", "why_tests_cant": "The numbers are counted while six files are written, stored in their metadata, and looked up in a permutation other than the one that is scanned; that they agree with the facts must hold for every input.", "anchors": ["src/index/Index.cpp:1202-1263", "src/index/Index.h:98-115", "src/index/Index.h:301-364", "src/index/IndexMetaDataImpl.h:264-267", "src/engine/IndexScan.cpp:306-332", "src/engine/IndexScan.cpp:384-430", "src/global/Constants.h:35-45"]}
{"id": "C87", "title": "Text search combines each posting with all matching rows", "statement": "For the postings of a text record, a text query with sub results appends, for each posting, exactly one row for every choice of one row of each sub result that matches an entity of the record (each entity counted once), and nothing else; with two sets of entities, one row for every pair of entities of the record in the two sets.", "quantifier": "all postings of a record, all numbers and contents of sub results", "why_tests_cant": "The combinations are indexed by division and modulo with the sizes of all sub results, so that an error appears only for certain numbers of sub results and rows.", "anchors": ["src/index/FTSAlgorithms.cpp:748-777", "src/index/FTSAlgorithms.cpp:780-830"]}
{"id": "C88", "title": "Cost factors are those of the file or the defaults", "statement": "After a file of cost factors has been read, each factor has the value in the last line of the file for it, and every factor without a line keeps its value; a file with a line that has not exactly one tab is refused; and whatever file was read, each factor that an operation asks for is present, so that looking it up is not undefined behaviour.", "quantifier": "all contents of the file, all initial factors, all keys", "why_tests_cant": "getCostFactor dereferences find() without a check, so that one missing key is undefined behaviour in the planner; tests use the defaults only.", "anchors": ["src/engine/QueryPlanningCostFactors.cpp:12-39", "src/engine/QueryExecutionContext.h:84-90", "src/engine/Join.cpp:430-436", "src/engine/TextOperationWithFilter.cpp:184-207", "src/util/StringUtils.h:448-461"]}
