# Formal model of QLever in Rocq (Coq 8.16.1)

Source: `/repo` (ad-freiburg/QLever, C++), read as text only. The Coq development is in
`rocq/theories`, logical name `Verif`.

## Layout

For every area `X` there are up to four files

| file | content |
|------|---------|
| `X_Model.v`  | the model: Gallina transcription of the C++ functions, each definition citing file and lines |
| `X_Spec.v`   | the specification the theorem statements use; does not mention the model |
| `X_Proof.v`  | lemmas |
| `X_Thm.v`    | the property theorems only (`exact lemma`), non-vacuity `Example`s, `Print Assumptions` |

`Base.v` holds generic facts about lists, sorting and arithmetic.

## Modelling conventions

* `Id` is `uint64_t`; ids are modelled by `N`. Where wrap-around matters the operations are taken
  modulo 2^64 explicitly; elsewhere ids are only compared and copied.
* A table (`IdTable`) is a `list (list N)`, a row is a `list N`.
* Loops become structural recursion, or recursion on fuel with an explicit out-of-fuel result that
  is proved unreachable.
* Undefined behaviour (reads out of bounds, dereferencing an end iterator, `lower_bound` with
  `first > last`) and failed `AD_CHECK`s are explicit outcomes of the model, never silently total.
* Threads: a small-step transition system; one transition per critical section.
* Trusted library behaviour: `std::sort` (a sorted permutation), `std::lower_bound`,
  `std::unique`, hash maps (finite maps), `std::async/future` (a value that becomes available
  once), the file system (a byte/word array).

## Findings

When the faithful model violates a property, a theorem `..._refuted` exhibits a concrete failing
input (or, for concurrent code, an execution), and the property is proved under the extra
hypothesis that excludes it; the theorem is then named `_partial` if the hypothesis is not one a
caller can be expected to meet. There are 261 refutations. Each of them says what the model does;
the model is a transcription of the cited lines, the C++ program was never run.

| theorem | file | what fails |
|---------|------|------------|
| `C03_empty_list_refuted` | `Postings_Thm.v` | An empty posting list cannot be read: the check of readFreqComprList throws. This happens for the entity list of a block that has no entities in its contexts. |
| `C03_large_context_refuted` | `Postings_Thm.v` | Contexts from 2^60 on cannot be stored. |
| `C04_intersect_keeps_old_refuted` | `Fts_Thm.v` | The result vectors of intersect are not cleared when nothing can match. |
| `C04_kway_one_list_refuted` | `Fts_Thm.v` | With one list only every second context is reported. |
| `C04_two_words_overrun_refuted` | `Fts_Thm.v` | And a longer first list is read past the end. |
| `C04_two_words_scores_refuted` | `Fts_Thm.v` | The search for contexts with two words passes the scores of the second word for both lists: the scores of the first word are lost, and a longer first list is read past the end. |
| `C06_count_wraps_refuted` | `Fts_Thm.v` | The number of contexts is stored in 16 bits: 65536 contexts are counted as 0. |
| `C06_filter_set_row_refuted` | `Fts_Thm.v` | The variant for several variables with a filter of one column leaves a column of the row unwritten and puts an entity behind its place (FTSAlgorithms.cpp:1310). |
| `C06_rows_last_refuted` | `Rows_Thm.v` | The rows of the greatest combination of entities keep their own scores instead of the number of contexts, for every input and every correct sort. |
| `C06_rows_lowest_refuted` | `Rows_Thm.v` | With k = 1 the context with the lowest score is kept and the best one is dropped, for every correct sort. |
| `C06_zero_contexts_refuted` | `Fts_Thm.v` | K = 0 still returns contexts. |
| `C07_join_refuted` | `Join_Thm.v` | A left table more than 1000 times larger than the right one: the galloping join starts at the wrong index (Join.cpp:650) and leaves the table. |
| `C08_gallop_left_refuted` | `Join_Thm.v` | Without it the galloping join has undefined behaviour where the merge join is defined (the fuel is the one `join` uses). |
| `C09_wide_tables_refuted` | `MultiJoin_Thm.v` | More than 32 columns: shifting an int by the column index is undefined. |
| `C12_column_types_refuted` | `Ops_Thm.v` | But the type of a column that only exists on the right is taken from the left input (Union.cpp:143). |
| `C12_hidden_column_refuted` | `Ops_Thm.v` | If a column of the left input belongs to no variable, the constructor writes behind the end of the vector of column origins. |
| `C12_no_columns_refuted` | `Ops_Thm.v` | A union without any variable divides by zero. |
| `C13_unsorted_refuted` | `Ops_Thm.v` | Without sorting duplicates survive. |
| `C14_avg_distinct_refuted` | `GroupBy_Thm.v` | AVG(DISTINCT ...) divides by the number of all values. |
| `C14_concat_distinct_refuted` | `GroupBy_Thm.v` | GROUP_CONCAT(DISTINCT ...) prints the delimiter behind the last value if the last row repeats a value. |
| `C14_empty_input_refuted` | `GroupBy_Thm.v` | Without GROUP BY and with an empty input there must be one row with count 0. |
| `C14_first_type_refuted` | `GroupBy_Thm.v` | FIRST and LAST of a column that does not hold vocabulary ids are declared to be ids. |
| `C14_local_vocab_refuted` | `GroupBy_Thm.v` | Entries of LOCAL_VOCAB columns (results of an inner GROUP_CONCAT) are copied, but the strings they refer to are not. |
| `C14_max_infinity_refuted` | `GroupBy_Thm.v` | The maximum of a group containing only -inf is reported as -3.4e38. |
| `C14_no_grouping_count_refuted` | `GroupBy_Thm.v` | SELECT (COUNT(?x) AS ?n) without GROUP BY counts one row too many. |
| `C14_no_grouping_overrun_refuted` | `GroupBy_Thm.v` | All other aggregates read behind the end of the input. |
| `C14_repeated_variable_refuted` | `GroupBy_Thm.v` | GROUP BY ?x ?x: the column number of ?x is not smaller than the number of columns. |
| `C15_filter_range_inverse_refuted` | `Ops_Thm.v` | The inverse range filter on a sorted column loses everything behind the range (Filter.cpp:292). |
| `C15_first_word_refuted` | `Ops_Thm.v` | A word smaller than all words of the vocabulary: <= keeps, and > loses, the first word. |
| `C15_float_binary_search_refuted` | `Ops_Thm.v` | A sorted FLOAT column with a negative number: the binary search is wrong. 0.5 < 1.0 holds for -1.0 as well, but -1.0 (stored behind 2.0) is lost. |
| `C15_float_equality_refuted` | `Ops_Thm.v` | Equality on FLOAT columns compares bits: -0.0 = 0.0 fails. |
| `C15_float_uninitialised_refuted` | `Ops_Thm.v` | The four upper bytes of the right hand side of a FLOAT comparison are not initialised (Filter.cpp:636, 694-695), and the result of an equality test depends on them. |
| `C15_not_equal_refuted` | `Ops_Thm.v` | != on a sorted column loses all rows with larger words. |
| `C16_bounded_path_refuted` | `Path_Thm.v` | With an upper bound the search misses nodes: 3 has distance 2 from 0 (via 2), but 2 is marked when it is first seen at distance 2 (via 1) and not expanded again. |
| `C16_fixed_ends_refuted` | `Path_Thm.v` | With two fixed ends nothing is returned, although the path exists. |
| `C16_left_bound_refuted` | `Path_Thm.v` | Adjacent rows of the left table with the same path end: the second one gets the other columns of the first one. |
| `C17_subquery_gap_refuted` | `HasPred_Thm.v` | Also for sorted inputs rows are lost, if an entity has no pattern and no explicit list exists at its position, e.g. because it never occurs as a subject. |
| `C17_subquery_unsorted_refuted` | `HasPred_Thm.v` | QueryPlanner.cpp:2932-2990 replaces the join by this scan without sorting its input. For an input that is not sorted the scan stops at the first unknown entity and loses rows. |
| `C18_unsorted_refuted` | `HasPred_Thm.v` | Sortedness is needed: an entity whose rows are not adjacent is counted more than once. |
| `C19_general_scores_refuted` | `Cache_Thm.v` | With a score that may return to an earlier value of the same entry (not possible for the clock of the LRU cache, but allowed by FlexibleCache) the lazily updated heap counts an entry twice: the entry is evicted two times and the accounted size becomes wrong. |
| `C19_size_wraps_refuted` | `Cache_Thm.v` | Without a bound on the sum of the sizes, _totalSizeNonPinned + _totalSizePinned wraps around and the size limit is not respected. |
| `C22_self_request_refuted` | `ConcCache_Thm.v` | Without the condition of C22_no_deadlock a thread can wait for itself: the computation of key 7 asks for key 7. No call can make a step although none has ended. |
| `C22_success_lost_refuted` | `ConcCache_Thm.v` | A result too large for the cache is simply not cached if nobody wants it pinned. If somebody does, nobody gets it: the computation of call 0 succeeds, but since call 1 joined it with a pinned request, the insertion throws and both calls end with an exception, although the request of call 0 alone would have succeeded. |
| `C24_failed_allocation_leaks_refuted` | `Alloc_Thm.v` | Allocate subtracts before it asks std::allocator (AllocatorWithLimit.h:143-145). If that throws, nothing is added back: with nothing allocated and nobody active, part of the limit is gone for good. |
| `C24_wrapping_request_refuted` | `Alloc_Thm.v` | N * sizeof(T) wraps, so a request for more than 2^64 bytes passes the check of the limit; only std::allocator refuses it, with bad_alloc or bad_array_new_length instead of the exception for the limit |
| `C25_multiplicity_refuted` | `Perm_Thm.v` | The distinct counter of the first relation is one too large for PSO, SPO and OSP. |
| `C25_scan2_refuted` | `Perm_Thm.v` | C25 claims an answer for all keys; looking up a left hand side that is not there can read behind the block |
| `C27_too_many_refuted` | `Meta_Thm.v` | A relation with 2^40 triples claims to have none |
| `C28_no_patterns_refuted` | `Patterns_Thm.v` | A limit of 0 is undefined behaviour (back() of an empty vector, Index.cpp:633). |
| `C28_two_without_pattern_refuted` | `Patterns_Thm.v` | With a smaller limit, as soon as two entities have no stored pattern, the explicit lists are wrong: everything goes to the last of these entities (Index.cpp:861, 1079). |
| `C28_wrong_predicate_refuted` | `Patterns_Thm.v` | And an entity is given predicates it does not have. |
| `C29_newline_prefix_refuted` | `Prefix_Thm.v` | C29: a prefix with a newline is written as two lines, and the words change. |
| `C29_text_empty_word_refuted` | `Vocab_Thm.v` | An empty last word of the text vocabulary is lost when it is read back. |
| `C30_front_refuted` | `Vocab_Thm.v` | A word in front of all others: for certain sizes (1, 4, 5, 10-13, 22, ...) the binary search computes `i - 1` for `i = 0` and leaves the file. |
| `C30_not_on_disk_refuted` | `Vocab_Thm.v` | Without external words (Index.cpp:1409 keeps all words internal), words that would be external are stored with the others but searched for in the empty external vocabulary. |
| `C30_text_word_refuted` | `Collate_Thm.v` | A word of the vocabulary that comes after one that is identical for the locale, like the other encoding of an accented letter, is not found. |
| `C31_empty_word_refuted` | `Merge_Thm.v` | The empty word equals the initial last word; it gets an id that does not exist. |
| `C31_external_refuted` | `Merge_Thm.v` | An externalized word that occurs in two partial vocabularies: the last written word is the one without the mark, so the second occurrence is taken for a new word. For every order and every batch size. |
| `C31_tied_refuted` | `Merge_Thm.v` | The parts are sorted by sort keys; words that are identical for the locale may come in any order. The merge compares their bytes. Then a word can get two ids. |
| `C32_language_refuted` | `Merge_Thm.v` | The predicate of a language is built from the marked predicate if this is externalized; a query builds it from the predicate itself (ParsedQuery.cpp:386) and does not find it. |
| `C34_batch_size_zero_refuted` | `Pipe_Thm.v` | A batch size of zero: the consumer is told that there is nothing although there are values. |
| `C34_called_again_refuted` | `Pipe_Thm.v` | The creator is called again after it has returned nullopt (BatchedPipeline.h:31-38 says that the batcher stops then). This creator counts its calls. |
| `C34_exception_refuted` | `Pipe_Thm.v` | Values created before an exception are lost, and a call after the exception is undefined. |
| `C34_no_lines_refuted` | `Pipe_Thm.v` | The first pass of the index build does not end if linesPerPartial is zero. |
| `C34_shared_state_refuted` | `Pipe_Thm.v` | A transformer with a state that is shared by two threads: the result depends on the schedule. |
| `C35_large_elements_refuted` | `Mmap_Thm.v` | With elements of more than half a page (and not exactly a page) push_back fails after clear. |
| `C35_moved_from_refuted` | `Mmap_Thm.v` | A vector that was moved from keeps its size and capacity without a mapping: push_back writes through a null pointer. |
| `C35_open_twice_refuted` | `Mmap_Thm.v` | Open() on a vector that is open does not save it: the file keeps the size it had when it was created or last grew. |
| `C35_push_own_refuted` | `Mmap_Thm.v` | Push_back(const T&) of an own element reads a dangling reference whenever the vector is full and mremap moves the mapping. |
| `C35_view_self_assign_refuted` | `Mmap_Thm.v` | Assigning a view to itself loses the mapping; the vector has a test for this. |
| `C36_collation_refuted` | `Conv_Thm.v` | The order holds for bytes; a collation that moves the minus sign breaks it for negative numbers. |
| `C36_float_throws_refuted` | `Conv_Thm.v` | 19 digits are not always a number. |
| `C36_leading_zeros_refuted` | `Conv_Thm.v` | Leading zeros multiply a number. |
| `C36_log10_refuted` | `Conv_Thm.v` | In double precision log10(999999999999999) is 15; then 0.999999999999999 is read as a tenth of it. |
| `C36_many_digits_refuted` | `Conv_Thm.v` | From 31 digits on an integer is shown as another one. |
| `C36_no_leading_digit_refuted` | `Conv_Thm.v` | Without a digit before the point the number is taken for a larger one, and two numbers share a word. |
| `C36_scientific_refuted` | `Conv_Thm.v` | Exponents are taken for digits: 1000 is smaller than 2. |
| `C36_truncated_refuted` | `Conv_Thm.v` | From 31 digits on different numbers have one word; a small one is read as if it were zero. |
| `C36_zeros_refuted` | `Conv_Thm.v` | Zero with more than one digit after the point is larger than some positive numbers and is not a number when it is read. |
| `C36_zeros_undefined_refuted` | `Conv_Thm.v` | The index word of 00.0 cannot be shown (undefined behaviour). |
| `C37_day_offset_refuted` | `Conv_Thm.v` | An offset after a day becomes part of the day. |
| `C37_long_year_refuted` | `Conv_Thm.v` | A year of more than 19 characters stops the index build with an exception. |
| `C37_offset_refuted` | `Conv_Thm.v` | Offsets are not taken into account: the later instant has the smaller word. |
| `C37_year_type_refuted` | `Conv_Thm.v` | A year is shown as a moment in the month zero. |
| `C37_year_zero_refuted` | `Conv_Thm.v` | The year zero is shown without a year, and that is another date. |
| `C38_distinct_refuted` | `Keys_Thm.v` | The columns of DISTINCT: SELECT DISTINCT ?x and SELECT DISTINCT ?x ?y. |
| `C38_filter_refuted` | `Keys_Thm.v` | A filter names variables, the scan below it does not: FILTER(?x < ?a) after ?a <p> ?x and after ?x <p> ?a. |
| `C38_group_distinct_refuted` | `Keys_Thm.v` | DISTINCT in an aggregate: COUNT(?c) and COUNT(DISTINCT ?c). |
| `C38_has_predicate_refuted` | `Keys_Thm.v` | The column of the subjects of ql:has-predicate. |
| `C38_minus_refuted` | `Keys_Thm.v` | The matched columns of MINUS: ... MINUS {?x <q> ?y} and ... MINUS {?x <q> ?z}. |
| `C38_newline_refuted` | `Keys_Thm.v` | A literal with line breaks can imitate the middle of a join. |
| `C38_optional_refuted` | `Keys_Thm.v` | Which side is optional: the constructor orders the sides by their texts. |
| `C38_path_refuted` | `Keys_Thm.v` | The join column of the side of a transitive path. |
| `C38_regex_flag_refuted` | `Keys_Thm.v` | A regular expression that imitates the flag. |
| `C38_sort_refuted` | `Keys_Thm.v` | Sort and ORDER BY on one column: ORDER BY orders ties by the first column. |
| `C38_union_refuted` | `Keys_Thm.v` | The columns of a union: {?x <p> ?y} UNION {?x <q> ?y} and {?x <p> ?y} UNION {?y <q> ?x}. |
| `C38_values_refuted` | `Keys_Thm.v` | A literal that imitates two rows of VALUES: the rows of one variable are not separated. |
| `C39_split_any_refuted` | `Strings_Thm.v` | A separator that is not an ASCII character is out of the range of the table. |
| `C39_split_empty_refuted` | `Strings_Thm.v` | The one empty part is lost. |
| `C41_duplicates_refuted` | `MultiJoin_Thm.v` | With duplicates in the relation the multiplicity of the join is lost. |
| `C41_first_column_only_refuted` | `MultiJoin_Thm.v` | Without the sortedness on the second column rows are lost. The planner (QueryPlanner.cpp:2829-2831, 2844-2846) accepts inputs for which only the first sort column is known. |
| `C42_first_entity_refuted` | `TextIndex_Thm.v` | If the smallest entity id is the number of words, its block is taken for a block of words. The entities are then not found. |
| `C42_no_words_refuted` | `TextIndex_Thm.v` | A text without words in the first block cannot be indexed: the check for an empty posting list fails. Likewise an empty text. |
| `C43_order_by_descending_refuted` | `Ops_Thm.v` | After a descending column the claim is false: ORDER BY DESC(?x) ?y claims to be sorted on ?y. |
| `C44_empty_document_refuted` | `Docs_Thm.v` | A document without text: its records get the text of the next document, |
| `C44_last_document_refuted` | `Docs_Thm.v` | And if there is none, or the record is after the last document, the call does not return. |
| `C44_negative_id_refuted` | `Docs_Thm.v` | A negative id is not rejected but counted from the end of the id range. |
| `C44_unordered_refuted` | `Docs_Thm.v` | The order of the ids is not checked: a document with a smaller id is stored under the next free one. |
| `C46_multi_column_hidden_refuted` | `Vars_Thm.v` | Columns without a variable on the left also shift the numbers, with any iteration order |
| `C46_multi_column_refuted` | `Vars_Thm.v` | MultiColumnJoin numbers the columns of the right input in the iteration order of its hash map, but the rows have them in column order: here ?z and ?w get each other's values |
| `C46_path_same_variable_refuted` | `Vars_Thm.v` | A path from a variable to itself: both ends are mapped to column 1, the row (1, 2) counts as a solution ?x = 2 of ?x p+ ?x although there is no path from 2 to 2 |
| `C47_equal_widths_refuted` | `IdTable_Thm.v` | Operator== does not compare the number of columns |
| `C47_moved_from_refuted` | `IdTable_Thm.v` | A moved-from table keeps its size and capacity but has no memory: using it again accesses foreign memory |
| `C47_push_own_row_refuted` | `IdTable_Thm.v` | Pushing a reference to a row of the table itself: the reference dangles when the storage grows |
| `C47_reserve_wraps_refuted` | `IdTable_Thm.v` | Reserve multiplies rows and columns in size_t: a huge request "succeeds" without memory, and the next row is written outside of the storage |
| `C47_set_cols_refuted` | `IdTable_Thm.v` | SetCols of a table without columns that has rows: the assert holds, but there is no memory for the rows |
| `C48_float_order_refuted` | `Ops_Thm.v` | Columns of type FLOAT are ordered by their bits, not by value: 1.0 comes before -1.0. |
| `C49_having_last_refuted` | `GroupBy_Thm.v` | In general only the last condition is applied. |
| `C50_absent_entity_refuted` | `TextIndex_Thm.v` | An entity that is not in the text: the entities that occur with the next entity are returned. |
| `C50_two_words_refuted` | `TextIndex_Thm.v` | Two words: the scores are wrong, or memory outside the vectors is read (see C04_two_words). |
| `C50_unordered_lines_refuted` | `TextIndex_Thm.v` | If the lines of a context are not contiguous, the context is split. |
| `C51_numeric_at_end_refuted` | `Strings_Thm.v` | A numeric escape at the end of a literal (or of an IRI) is rejected, whatever precedes it. |
| `C51_short_literal_refuted` | `Strings_Thm.v` | A single quote or three of them: the views become shorter than empty. |
| `C52_at_most_refuted` | `Collate_Thm.v` | Without such a word, the id is 0 and "at most 0" holds for the first word |
| `C52_different_literals_refuted` | `Collate_Thm.v` | The literals with the contents a\ and a\" are stored as "a\" and "a\"": the comparator takes the end of the first for an escaped quotation mark, and compares them equal. |
| `C52_prefix_last_byte_refuted` | `Collate_Thm.v` | A key that ends with the greatest byte. A zero byte is appended, which the comparison of the keys ignores: the range is empty, even if the prefix is a word. |
| `C52_prefix_weightless_refuted` | `Collate_Thm.v` | A prefix without primary weights, like the start of a literal: the last byte of an empty key is read. |
| `C52_simple_total_refuted` | `Collate_Thm.v` | SimpleStringComparator returns 1 or 0 for different words that the locale calls identical: both "greater" and "equal" for the same two words. |
| `C53_other_order_refuted` | `Prefix_Thm.v` | Words in another order than that of the bytes, e.g. without regard to case: a null pointer. The file for the prefixes is therefore sorted by bytes (Index.cpp:97-107, 237-238). |
| `C54_base_refuted` | `Turtle_Thm.v` | The dot after @base is not skipped; the rest of the file is ignored. |
| `C54_collection_refuted` | `Turtle_Thm.v` | Collections are rejected. |
| `C54_comments_refuted` | `Turtle_Thm.v` | At most one comment is skipped at a time; after three comments a prefix declaration is not recognized and the rest of the file is ignored. |
| `C54_decimal_refuted` | `Turtle_Thm.v` | A decimal number is read as an integer and its dot ends the statement; the rest of the file is ignored without an error. |
| `C54_double_refuted` | `Turtle_Thm.v` | The same for a number with an exponent. |
| `C54_empty_prefix_refuted` | `Turtle_Thm.v` | The empty prefix is rejected. |
| `C54_exponent_refuted` | `Turtle_Thm.v` | An object whose prefix looks like an exponent is taken for a number. |
| `C54_keyword_a_refuted` | `Turtle_Thm.v` | A predicate whose prefix begins with the letter a is taken for the keyword a. |
| `C54_keyword_prefix_refuted` | `Turtle_Thm.v` | A subject whose prefix begins with PREFIX is taken for a directive. |
| `C54_keyword_true_refuted` | `Turtle_Thm.v` | An object whose prefix begins with true is taken for the boolean. |
| `C54_property_list_subject_refuted` | `Turtle_Thm.v` | A blank node property list as a subject adds a triple with the subject and predicate of the statement before, and the predicates that follow it get the subject of the statement before. |
| `C54_sparql_prefix_refuted` | `Turtle_Thm.v` | A prefix declared by PREFIX keeps its angle brackets, so that its names contain them. |
| `C54_two_dots_refuted` | `Turtle_Thm.v` | A prefix with two dots in a row is rejected. |
| `C55_dotted_label_refuted` | `Turtle_Thm.v` | The same for the label of a blank node. |
| `C55_dotted_refuted` | `Turtle_Thm.v` | A name with a dot that is cut after the dot gives a wrong triple, and the rest of the file is lost. |
| `C55_order_refuted` | `Turtle_Thm.v` | The triples of a batch are delivered in reverse order. |
| `C55_redeclared_refuted` | `Turtle_Thm.v` | The prefixes are not put back when a block is read again: a name that was read before its prefix was declared again gets the new meaning, depending on where the blocks end. |
| `C55_silent_loss_refuted` | `Turtle_Thm.v` | An input that cannot be parsed up to its end is not an error: the triples after a decimal number are lost. |
| `C56_mmap_endless_refuted` | `Turtle_Thm.v` | The parser for mapped files does not end on a file with white space and comments only. |
| `C56_mmap_only_first_refuted` | `Turtle_Thm.v` | The parser for mapped files delivers the triples of the first statement only and then reports the end. |
| `C57_comment_refuted` | `Lines_Thm.v` | An empty line or a comment line ends the loading with an exception. |
| `C57_dot_refuted` | `Lines_Thm.v` | An object that is followed by the dot without a blank is rejected. |
| `C57_escaped_quote_refuted` | `Lines_Thm.v` | A literal with an escaped quote and a blank behind it is cut at this blank, without an error. |
| `C57_open_literal_refuted` | `Lines_Thm.v` | A literal without a closing quote is accepted together with the rest of the line. |
| `C58_missing_fields_refuted` | `Lines_Thm.v` | In a release build a line with fewer fields is not rejected: fields are repeated. |
| `C59_order_refuted` | `Lines_Thm.v` | In a release build contexts out of order are accepted. |
| `C59_score_refuted` | `Lines_Thm.v` | A score above 65535 is not rejected but taken modulo 65536. |
| `C60_count_refuted` | `PPath_Thm.v` | A count behind a parenthesis is a syntax error, because the delimiter that is tested is the first one of the run: `(<a>/<b>)*3` is rejected. |
| `C60_delimiter_link_refuted` | `PPath_Thm.v` | A delimiter is accepted as a link: `<a>//` is a sequence of <a> and a link named `/`. |
| `C60_non_ascii_refuted` | `PPath_Thm.v` | An IRI with a byte that is not a graphic ASCII character (for example any non-ASCII letter) is rejected as a predicate. |
| `C60_null_refuted` | `PPath_Thm.v` | An alternative with a part that can be empty is not marked as one that can be empty. |
| `C61_long_sequence_refuted` | `PPath_Thm.v` | The parts of a sequence are connected wrongly as soon as a part that cannot be empty follows both one that can and one that cannot: all chunks of the sequence get the ends of the whole path. The path a*/b/c does not find x -b-> m -c-> y. |
| `C61_mixed_alternative_refuted` | `PPath_Thm.v` | An alternative with a part that can be empty beside one that cannot loses the empty path: the path (a\|b* )/c does not find x -c-> y. |
| `C61_sequence_undefined_refuted` | `PPath_Thm.v` | The vector of the bits is indexed beyond its end if a part that can be empty is not in the first chunk: for example in a/b*/c/d*, whatever the links are. |
| `C62_foreign_filter_refuted` | `Plan_Thm.v` | A filter on a variable that does not occur in the pattern is ignored instead of removing every row. |
| `C62_sort_column_refuted` | `Plan_Thm.v` | With other cost estimates the plan for a pattern with a cycle sorts an input of two columns by its third column, that is by memory outside of the row. |
| `C62_two_column_refuted` | `Plan_Thm.v` | A pattern with a cycle can lose answers: for `?x <q> ?y . ?y <r> ?z . ?z <p> ?y` with exact cost estimates the plan that is chosen sorts the left input of a join on two columns by a column of the right input (QueryPlanner.cpp:2833-2838 with swap) and finds four of the five answers. |
| `C62_variable_predicate_refuted` | `Plan_Thm.v` | The variable of `?x ?x <o>` is looked up in the vocabulary as if it were a predicate, so the result is empty for every graph, also for those with answers. |
| `C63_disconnected_refuted` | `Plan_Thm.v` | The planner throws for a pattern that is not connected instead of computing the cross product. |
| `C63_full_scan_refuted` | `Plan_Thm.v` | The plan for `?s ?p ?o` alone cannot be executed: the full scan of the index is not implemented. |
| `C63_full_scan_two_refuted` | `Plan_Thm.v` | A full scan that shares two variables with another triple is an input of a join on two columns, which evaluates it and throws. |
| `C63_repeated_variable_refuted` | `Plan_Thm.v` | `?x ?p ?x` is a legal pattern, but the planner makes no plan for it and throws. |
| `C63_shift_refuted` | `Plan_Thm.v` | With exactly 64 triples the mask `size_t(1) << 64` in connected is undefined, although up to 64 triples are accepted. |
| `C64_dollar_refuted` | `SLex_Thm.v` | The name `a:x\$y` is split before the backslash, which is then rejected: the dollar sign in the expression for escaped characters is not escaped and stands for the end of the text. |
| `C64_exponent_refuted` | `SLex_Thm.v` | A number with an exponent is split. |
| `C64_long_string_refuted` | `SLex_Thm.v` | A string in three quotes is split into three strings: the first is empty. |
| `C64_names_refuted` | `SLex_Thm.v` | A name with a prefix that begins with a word of the language is split, for every such word: in `text:x` the keyword `text` is found first. |
| `C64_rejected_refuted` | `SLex_Thm.v` | A variable that begins with a dollar sign, a blank node and `&&` are rejected. |
| `C64_single_quotes_refuted` | `SLex_Thm.v` | No string in single quotes is accepted: the code searches for the last double quote in it. |
| `C64_type_names_refuted` | `SLex_Thm.v` | The message about a decimal number or `\|\|` in the wrong place reads past the end of the array with the names of the types. |
| `C65_decimal_refuted` | `Sparql_Thm.v` | A decimal number as an object leads to a read past the end of an array. |
| `C65_langmatches_refuted` | `Sparql_Thm.v` | A filter with langMatches is rejected if its parentheses are right, and accepted if one is missing. |
| `C65_limit_refuted` | `Sparql_Thm.v` | Negative numbers are accepted for LIMIT and OFFSET. |
| `C65_prefix_refuted` | `Sparql_Thm.v` | The upper bound of the filter prefix(?y, "ab") is built from the variable: it is `c `, so every greater literal passes. |
| `C65_rejected_refuted` | `Sparql_Thm.v` | Queries of SPARQL that are rejected: the predicate `a`, three groups in a union, a number as an object, no dot before OPTIONAL, no WHERE, SELECT *, the other forms of queries, a group in a group, two conditions in a filter, an expression in BIND with constants. |
| `C65_trailing_refuted` | `Sparql_Thm.v` | One token after the end of a query is ignored, for example a second closing brace. |
| `C66_braces_refuted` | `Sparql_Thm.v` | The expression `^a{2}` becomes a test for the prefix `a{2}`, since braces are not among the operators that the code knows. |
| `C66_escape_refuted` | `Sparql_Thm.v` | An expression with another escape sequence in its beginning, for example `^\d`, is rejected. |
| `C67_backslash_refuted` | `Sparql_Thm.v` | A literal that ends with a backslash gets a quote instead. |
| `C67_quote_refuted` | `Sparql_Thm.v` | A literal with a quote in it is rejected (unless a tag, a type or white space follows the quote). |
| `C67_tag_refuted` | `Sparql_Thm.v` | A literal with a hyphen in its language tag is rejected. |
| `C68_backslash_refuted` | `SPrefix_Thm.v` | Backslashes in a literal whose type is a name are taken for escape sequences: removed or rejected. |
| `C68_carets_refuted` | `SPrefix_Thm.v` | A text with two carets and a name in it is changed. |
| `C68_colon_refuted` | `SPrefix_Thm.v` | The type of a literal with a colon in it is not expanded, as in 12:00 with the type xsd:time. |
| `C68_groups_refuted` | `SPrefix_Thm.v` | Names in the filters of OPTIONAL, MINUS and UNION groups are not expanded: the filters of a group stay as they are. |
| `C68_having_refuted` | `SPrefix_Thm.v` | Names in HAVING are not expanded. |
| `C68_undeclared_refuted` | `SPrefix_Thm.v` | A name with a prefix that is not declared is not reported, for every such name. |
| `C69_comma_refuted` | `Output_Thm.v` | Values with a comma in them are not quoted in CSV exports: two different rows give the same line. |
| `C69_cut_refuted` | `Output_Thm.v` | A query without LIMIT gets at most 100000 rows as Json, whatever number of rows the request asks for. |
| `C69_offset_refuted` | `Output_Thm.v` | A CSV or TSV export of a query with OFFSET and without LIMIT is empty, whatever its result is: offset plus the greatest number wraps to offset - 1. |
| `C69_unbound_refuted` | `Output_Thm.v` | An unbound count (ID_NO_VALUE, Id.h:14), as in an OPTIONAL with a subquery that counts, is shown as a number. |
| `C70_crash_refuted` | `Http_Thm.v` | A request line with HTTP, and GET near its end, ends the server: substr throws outside of the try block. |
| `C70_http_refuted` | `Http_Thm.v` | A request with the word HTTP in its query is cut there, and a character is lost: the query is taken for all between the first = and the character before the first HTTP. |
| `C70_no_equals_refuted` | `Http_Thm.v` | A parameter without = is not reported if one with = follows: its name takes both, and its value all the rest. |
| `C70_retry_refuted` | `Http_Thm.v` | In a debug build, six errors of ::send in a row end the answer without an error. |
| `C71_number_refuted` | `Values_Thm.v` | (see the statement) |
| `C71_undef_refuted` | `Values_Thm.v` | A row with UNDEF for a variable that has a value in another row is dropped, although it gives a value to the other variable. |
| `C71_unknown_refuted` | `Values_Thm.v` | A row with a word that is not in the vocabulary is dropped, also if the clause stands alone. |
| `C72_negative_refuted` | `Bind_Thm.v` | A negative constant becomes a great number, -3 even the Id for unbound. |
| `C72_rounding_refuted` | `Bind_Thm.v` | Sums of counts are rounded to 24 bits: 16777216 + 1 is 16777216. |
| `C72_unbound_refuted` | `Bind_Thm.v` | An unbound count is taken for the number 2^64 in arithmetic instead of giving an unbound result. |
| `C73_nested_filter_refuted` | `Group_Thm.v` | In a group that is nothing but a nested group with filters, `{ { A FILTER f } FILTER g }`, the outer filters are not applied: the plan of the nested group is taken over together with its mask of applied filters (QueryPlanner.cpp:424, 2189). |
| `C73_optional_filter_refuted` | `Group_Thm.v` | A filter inside OPTIONAL on a variable that occurs only outside of it is ignored (QueryPlanner.cpp:2192-2199). |
| `C73_optional_first_refuted` | `Group_Thm.v` | An OPTIONAL whose variables are all new is planned as a required pattern, also when it comes first: if it has no solutions, `{ OPTIONAL { A } B }` loses the solutions of B (QueryPlanner.cpp:215-229). |
| `C73_subquery_limit_refuted` | `Group_Thm.v` | LIMIT and OFFSET of a subquery are ignored: the planner does not read them (QueryPlanner.cpp:37-104). |
| `C73_subquery_projection_refuted` | `Group_Thm.v` | A variable that a subquery does not select is visible outside: a variable of the same name in the outer pattern is joined with it (QueryPlanner.cpp:37-104 returns the tree with all variables). |
| `C73_unbound_join_refuted` | `Group_Thm.v` | A variable that an OPTIONAL leaves unbound is compared like a value in a later join: the solutions without a value for it are lost. |
| `C74_minus_refuted` | `Trick_Thm.v` | MINUS with the predicate variable is not looked at either: `MINUS { ?x ql:has-predicate ?p FILTER(...) }` then removes all predicates of a subject, not just the one (QueryPlanner.cpp:547-590). |
| `C74_multiplicity_refuted` | `Trick_Thm.v` | COUNT without DISTINCT counts every subject once per predicate, however many solutions of the rest have it: for `?x <p> ?y . ?x ql:has-predicate ?p` the code counts 2 where the query has 3 solutions (QueryPlanner.cpp:458-467 turns down only DISTINCT; CountAvailablePredicates.cpp:228-294). |
| `C74_no_alias_refuted` | `Trick_Thm.v` | `SELECT ?p WHERE { ?x <p> ?y . ?x ql:has-predicate ?p } GROUP BY ?p` has no alias: the code reads the first element of an empty vector, which is undefined (QueryPlanner.cpp:931). |
| `C74_optional_refuted` | `Trick_Thm.v` | When the triple was the only part before an OPTIONAL, the OPTIONAL becomes a required pattern: subjects without a match are not counted. |
| `C74_two_filters_refuted` | `Trick_Thm.v` | Of several filters on the predicate only the last one is applied: they become HAVING clauses, and each is applied to the unfiltered result (QueryPlanner.cpp:976-986). |
| `C74_unrelated_refuted` | `Trick_Thm.v` | A query whose other parts do not contain the subject is refused, although it has solutions (QueryPlanner.cpp:900-910). |
| `C74_values_refuted` | `Trick_Thm.v` | VALUES for the predicate are ignored: the check does not look at VALUES at the top of the query, and ?p has values that VALUES does not list (QueryPlanner.cpp:547-590). |
| `C75_count_nothing_refuted` | `Query_Thm.v` | An aggregate without GROUP BY over no solutions at all has no result. |
| `C75_distinct_score_refuted` | `Query_Thm.v` | SELECT DISTINCT SCORE(?t) where ?t has no score distinguishes by ?t, which is not shown. |
| `C75_nested_distinct_refuted` | `Query_Thm.v` | For the same reason SELECT DISTINCT ?y on such a subquery keeps duplicates. |
| `C75_nested_order_refuted` | `Query_Thm.v` | A subquery with ORDER BY DESC(?x) ?y claims to be sorted by ?y. The ORDER BY ?y of the outer query is left out and its result is not in order. |
| `C75_two_conditions_refuted` | `Query_Thm.v` | With two HAVING conditions the first one is ignored. |
| `C76_context_variable_refuted` | `TextOp_Thm.v` | If the variable of the text record is the shared variable, it is taken for an entity variable. The columns of the filter are then one too high: the last one is outside the result. |
| `C76_duplicates_refuted` | `TextOp_Thm.v` | A filter of one column is made a set, so its duplicates are lost: the solutions of the text operation that match a value that occurs twice are returned once. |
| `C76_no_entities_refuted` | `TextOp_Thm.v` | Words without entity variables cannot be joined through the variable of the text record: the operation with a filter throws. |
| `C76_one_column_refuted` | `TextOp_Thm.v` | A filter of one column and several entity variables: one variable is read from a column that was never written, so different solutions get the same value for it, whatever the memory contained. |
| `C78_constant_record_refuted` | `Clique_Thm.v` | If the text record is a constant, the text operation has a column for it as if it were a variable, and its text records are not restricted. |
| `C78_entity_word_refuted` | `Clique_Thm.v` | The constant of a contains-entity triple is looked up as a word if it is no IRI: the triple then asks for a word. |
| `C78_no_words_refuted` | `Clique_Thm.v` | A clique whose triples have no constant, for example text records that contain two entities of a query, is refused (AD_CHECK). |
| `C78_two_spaces_refuted` | `Clique_Thm.v` | Two spaces in a row give an empty search term, whose first and last character the search reads. |
| `C79_absent_refuted` | `Whole_Thm.v` | C79 claims the answers of every query; looking up a subject and a predicate that are both in the vocabulary, but in no triple together, can read behind a block of the file, although the answer is known to be empty. |
| `C80_other_query_refuted` | `Timeout_Thm.v` | A query without a time limit is aborted if another query fails that computes a result it waits for, for example because of the time limit of that other query. |
| `C80_seconds_refuted` | `Timeout_Thm.v` | A query with a larger time limit (in seconds, timeout=1e13) leads to undefined behaviour (with x86 it is aborted at once: the conversion gives a negative limit). |
| `C81_again_refuted` | `Info_Thm.v` | If a result is not kept in the cache and the same operation computes it again, all children are listed twice, and the operation time becomes negative. |
| `C81_details_refuted` | `Info_Thm.v` | The details that an operation notes during its computation (empty sides of a join, the statistics of the pattern trick) are never shown. |
| `C81_names_refuted` | `Info_Thm.v` | The names of the columns of VALUES (?x ?x) { … }, and of the path ?x p+ ?x, are written outside of the vector: there is one variable, and it is in column 1. |
| `C81_original_time_refuted` | `Info_Thm.v` | The detail original_total_time, the time of the first computation of a cached result, is 0 whatever that time was, and original_operation_time is the negated time of the children: the cache gets the information before the time is measured. |
| `C81_waited_refuted` | `Info_Thm.v` | A result that another thread computes and this one waited for counts as not cached (ConcurrentCache.h:286-289): the shown operation time is the waiting time minus the times of the children in the other thread, which can be negative. |
| `C82_constant_on_disk_refuted` | `Serve_Thm.v` | A condition ?x = w loses the answers in which ?x is w, if the word w is kept on disk. |
| `C82_export_refuted` | `Serve_Thm.v` | An export of a query with OFFSET and without LIMIT is empty, whatever the answers are. |
| `C82_language_refuted` | `Serve_Thm.v` | A condition ?x = w for a literal w with a language keeps the answers in which ?x is the same text in another language. |
| `C83_full_columns_refuted` | `IScan_Thm.v` | Scans of the full index are made without subject, predicate and object, so that the operation says that its result, which is three columns wide, has no variables. |
| `C84_same_variable_refuted` | `HasScan_Thm.v` | C84 needs different variables: for `?x ql:has-predicate ?x` the planner makes a scan for the subjects with the predicate `?x`, which throws an exception (there is a TODO in the code). |
| `C84_subquery_gap_refuted` | `HasScan_Thm.v` | A scan with a subtree stops at the first entity without a pattern, such as `<c>`, which is no subject: the rows behind it, here that of `<d>`, are missing in the result, but not in the join that the scan replaces. |
| `C84_unknown_refuted` | `HasScan_Thm.v` | C84 claims a result for every triple; if the predicate or the subject is no word of the input, the scan throws an exception, although the result is known to be empty. |
| `C85_configuration_refuted` | `Converter_Thm.v` | A configuration with a list of prefixes is written again with that list, and a new one gets such a list and no locale: neither can be read by the server. |
| `C85_current_dense_refuted` | `Converter_Thm.v` | The tool reads dense permutations without opening their vectors: on a dense permutation of the current version that has a relation with blocks it uses the entries of a vector that was never set up. |
| `C85_dense_to_sparse_refuted` | `Converter_Thm.v` | A dense permutation whose relations have no blocks becomes a sparse permutation without any relation. |
| `C85_old_dense_refuted` | `Converter_Thm.v` | A dense permutation of the old version loses the blocks of its relations and all of the statistics when it is converted. |
| `C85_out_of_range_refuted` | `Converter_Thm.v` | A dense permutation made by the tool has room for ids up to the largest one that has a relation only. So looking up any other word that the vocabulary knows, for example a literal in SPO, reads outside of the vector. |
| `C85_statistics_refuted` | `Converter_Thm.v` | The conversion of sparse metadata to dense metadata forgets the numbers of bytes and of blocks: both are 0 afterwards. |
| `C85_uncompressed_refuted` | `Converter_Thm.v` | An index that was built without compression, which has no file of prefixes, can be read by the server but not by the tool. |
| `C86_average_refuted` | `Card_Thm.v` | The multiplicities of a scan of the full index are divisions of integers: five facts with three subjects have multiplicity 1, so that the distinct subjects times the multiplicity are three and not five. |
| `C86_text_refuted` | `Card_Thm.v` | The size estimate of a scan for the predicate of text matches is 1 000 000 000, although its result is empty. |
| `C87_wraps_refuted` | `Cross_Thm.v` | Four sub results with 65536 rows for an entity have 2^64 combinations, and this number wraps to 0: no row is appended. |

Read while modelling, without a theorem:

* `comparePatternCounts` is not irreflexive for the empty pattern; `HeapBasedPQ` compares with
  `!comp(a, b)`, which is not a strict weak order.
* `FlexibleCache::erase` of an unpinned key, the constructor of `TreeBasedLRUCache`,
  `MmapVectorTmp::operator=` and `IdTable::push_back(const Id*)` would not compile if instantiated.
* `File::read` (util/File.h:196-218) loops forever past the end of a file.
* The minimal sentinel {0,0,0} of the stxxl comparators is not strictly smaller than a triple (0,0,0).
* An empty set of triples writes no pattern file and no permutations.
* `getIndexOfBestSuitedElTerm` (Index.Text.cpp:1155-1211) uses an uninitialised range for a prefix
  that is not in the vocabulary; `getECListForWordsAndSingleSub` and its variants never flush the
  last context.
* `FTSAlgorithms` row variant of `aggScoresAndTakeTopKContexts` (369-428) never updates the score of
  the last group and sorts ascending.
* `ContextFileParser` checks the order only in debug builds; `Vocabulary::readFromFile` only logs.
* `Vocabulary::createFromSet` sorts at level QUARTERNARY, `getId` searches at TOTAL.
* `_maxNumPatterns` has no setter, so `hasPredicate` is always empty and `C17_subquery_gap_refuted`
  happens for every entity that is not a subject.

## Plan per property

| id | what is modelled | how it is proved |
|----|------------------|------------------|
| C01, C02 | `Simple8bCode::encode/decode` on `list N` with 64-bit words | induction on the encoder's progress, bit-field lemma for one word |
| C03 | `writePostings`, `createCodebooks`, `writeList`, both readers, over a word-addressed file | composition of gap, codebook and C01 round trips |
| C04, C05, C06 | `FTSAlgorithms` functions as loops over index-addressed vectors; the row-based aggregation as a fold over the sorted rows | loop invariants against list comprehensions |
| C07, C08 | `Join::join`, `doGallopInnerJoin` | invariant over zipper; permutation with nested-loop join |
| C09, C10, C11, C41 | `OptionalJoin`, `MultiColumnJoin`, `Minus`, `Engine::filter` | same, lexicographic keys |
| C12 | `Union::computeUnion` | list equality |
| C13, C43 | `Engine::distinct`, `Sort`, `OrderBy`, reported sort orders | induction |
| C14 | `GroupBy::doGroupBy`, `processGroup` | group-boundary invariant |
| C15 | `Filter` comparison paths | both paths equal `filter` |
| C16 | `TransitivePath` depth-first searches | reachability invariant with marks; bounded case refuted |
| C17, C18 | `HasPredicateScan`, `CountAvailablePredicates` | induction |
| C19, C20, C21 | `FlexibleCache`, `HeapBasedPQ` | invariant over operation histories |
| C22, C23 | `ConcurrentCache` as transition system over threads | inductive invariant over reachable states |
| C24 | `AllocatorWithLimit` as transition system | inductive invariant |
| C25 | relation writer, metadata, block lookup, scans over a word-addressed file | round trip from triples to scan results |
| C26, C27 | metadata serialisation, bit packing | round trip; `N.testbit` reasoning |
| C28 | `createPatternsImpl` | induction over sorted triples |
| C29, C30 | `Vocabulary`, `ExternalVocabulary` | round trip; binary-search invariant |
| C31, C32 | `VocabularyMerger`, `ItemMapManager`, id conversion | merge invariant, simulation |
| C33, C39, C45 | `RdfEscaping`, `StringUtils` | structural induction on strings |
| C34 | `Batcher`/`BatchedPipeline` | schedule-independent denotation of futures |
| C35 | `MmapVector`, `BufferedVector` | refinement to `list` |
| C36, C37 | `Conversions.h` | order embedding on digit strings |
| C38 | `asString` of the operations | injectivity up to result equality; collisions refuted |
| C40 | `CompactStringVector` | round trip |
| C42, C44, C50 | `TextMetaData`, `DocsDB`, the text index from the context file to the answers | files as byte lists, refinement to the set of contexts; refutations for overlapping ids |
| C46 | variable-to-column maps of the operations | case analysis per operation, refutation where hash-map order leaks |
| C47 | `IdTable` with its flat storage | refinement to a list of rows over all histories of legal operations |
| C48, C49 | ORDER BY by value, HAVING | order embedding; only the last condition is applied (refuted) |
| C51, C52 | `RdfEscaping` normalisation, `StringSortComparator` | grammar of escapes; preorder from the documented behaviour of ICU |
| C53 | `PrefixHeuristic` | tree invariant, greedy choice |
| C54 | Turtle grammar functions, RE2 tokens, escapes | grammar as inductive relations; parser follows each derivation; fuel never runs out |
| C55 | `TurtleStreamParser`: blocks, backup and reset | every proper prefix of a statement is not parsed; invariant over resets |
| C56 | `TurtleMmapParser::getLine` | general refutation: only the first statement is delivered |
| C57, C58, C59 | `NTriplesParser`, `TsvParser`, `ContextFileParser`: `getLine` on positions in a line | line grammar; positions computed along the line |
| C60 | `PropertyPathParser`: tokenizer with runs of delimiters and recursive descent on tokens; `computeCanBeNull` | grammar of token lists; induction on the derivation; inversion of accepted inputs |
| C61 | `seedFromPropertyPath` and its helpers, producing triples, unions and transitive paths with fresh variables (the children of a union as alternatives, the transitive path by its ends and its bounds) | walks in the graph; every seeder gives exactly the proper (non-empty) connections; not covered: multiplicities of solutions, `optimize` and the execution of the pattern |
| C62 | `seedWithScansAndText` for plain triples, `createJoinCandidates` for BASIC plans, `merge` with pruning, `applyFiltersIfPossible`, `fillDpTab`, and constructors, columns, widths and sort orders of the joins; cost estimates, string order and hash map orders are arbitrary | invariant of every plan in the table (columns, covered nodes, filters, computed bag); counting argument that patterns sharing variables like a tree never need joins on two columns; not covered: text, OPTIONAL, MINUS, has-predicate and transitive-path cases of the planner |
| C63 | the same functions with the outcomes plan, exception, undefined behaviour | measure on filters; no undefined shift below 64 triples; a connected pattern has a candidate in every row of the table |
| C64 | the regular expressions of the SPARQL lexer as functions on bytes, `readNext`, `accept`, `expect`, `expandNextUntilWhitespace`, with exceptions and out-of-bounds reads as outcomes | each expression matches the token it is for and none before it does; induction over gaps and tokens |
| C65 | the recursive-descent parser of `SparqlParser.cpp` function by function on the modelled lexer, with the result types of `ParsedQuery.h` | a grammar and its meaning as relations between syntax trees, texts and queries; mutual induction over patterns and subqueries; termination by a measure on the text that is left |
| C66 | `parseRegexFilter`: the scan for operators and the removal of backslashes | literal expressions as an inductive relation; both directions by induction over the expression |
| C67 | `parseLiteral` | the text of a literal as quote, content, quote, suffix; induction over the content |
| C68 | `expandPrefixes`, `expand_pattern`, `expand_path`, `expandPrefix` | relation `query_stands` from queries to queries, which says of every name what it stands for; induction over groups and property paths |
| C69 | `writeResultToStream`, `writeResultAsJson`, `writeTable`, `writeJsonTable`, the row counts of `Server` | the rows as `firstn`/`skipn` of the table with 64 bit bounds; a reader of separated values as inverse |
| C70 | `getHTTPRequest`, `send`, `process`, `parseHttpRequest`, `createQueryFromHttpParams` | relation `asks` from request lines to parameters; induction over the packets, over the parameters and over the calls of `::send` |
| C71 | `sanitizeValues`, `writeValues`, `getVariableColumns` of `Values` | relation `gives` from rows to values of variables; erasing from the end is a selection; the result is the sublist of the rows with known values |
| C72 | `Bind::computeResult` and its three loops | floats as in Coq's `SpecFloat` with 24 bits; values as integers in units of 2^-149, operations with a result that fits are exact; the bits are decoded by an independent definition |
| C73 | `optimize`, `createExecutionTree`, `getDistinctRow`, `applyFiltersIfPossible` | SPARQL algebra with bags of partial mappings as specification; mutual induction over elements, groups and queries; invariant: the join of the open plans is the bag so far, restricted by some filters of the group |
| C74 | `checkUsePatternTrick`, `getPatternTrickRow`, `getHavingRow`, on top of C18 and C73 | joining the triple last gives the same bag (the join commutes with every later element, by cases on partial mappings); then counting subjects per predicate equals counting solutions, with the counts of C18 |
| C75 | `createExecutionTree` after `optimize`: `getGroupByRow`, `getHavingRow`, `getDistinctRow`, `getOrderByRow` on nodes with variable columns, rows and claimed order, using the operations of C13, C14, C48 and C49 | every step keeps the claimed order true and does to the solutions what the specification says, for every permitted result of the sorts; solutions are functions from variables to values, so the specification knows no columns |
| C76 | `getVariableColumns`, `getResultWidth` and `computeResult` of both text operations, on top of the aggregation of C06; the postings of the words are an input (C42, C50 prove what they are) | the aggregation is a function of the occurrences of a tuple, whatever the order of the hash map; the tuples of the filtered operation are those of the unfiltered one with the filtered entity moved to the front; the columns are compared variable by variable |
| C77 | `knownEmptyResult` of every operation and of trees, the size estimates it is based on, the choice of the word whose entity lists are read, the shortcuts of `Join::computeResult`; what the operations compute is taken from their models; a filter keeps or drops each row; result types of the shortcuts are not modelled | the rule of each operation is shown to imply an empty result given that the inputs known to be empty are empty, then induction on the tree; execution with shortcuts is compared with the plain one by induction on the tree |
| C78 | `createTripleGraph`, `identifyTextCliques`, `collapseTextCliques`, the constructors of `TripleGraph::Node`, `getTextLeafPlan`; the predicate of a triple is a string; the look-up of a search term in the vocabularies is a parameter; the text operation (C50, C76) | the graph by induction on the triples; the cliques by induction on the node ids; old and new ids are shown to form a partition, which gives the edges; the answer composes C39 (splitting), C50 (search) and C76 (rows) |
| C79 | the composition of the models of C29 (compressed words), C30 (vocabulary), C32 (first pass), C25 (permutations) and C62 (planning): `createFromFile` and `createFromOnDiskIndex` as one relation, `IndexScan::computeResult` with the lookups in the vocabulary and the reads of the files, joins with a full scan; the parser and patterns are not part of it, externalized entities are excluded | the files give the sorted tables that the plans of C62 are about, by uniqueness of strictly sorted lists; all ids in intermediate tables are ids of the vocabulary, by induction on the execution; words and ids correspond one to one |
| C80 | `Timer` and `TimeoutTimer`, `recursivelySetTimeoutTimer`, `getResult` (with the concurrent cache as an oracle), `checkTimeout`, the estimates of `Sort` and `OrderBy`, `checkTimeoutAfterNCallsFactory`, the timer of `Server::processQuery`; `computeResult` is any program that gets results, looks at the timer, estimates, returns or throws; the clock is any function of the number of readings; runtime information, messages and the overflow of `off_t` are left out; scans that are executed during planning run before the timer is set | an invariant for the timer (its time is that of the clock minus the time lost between stop and continue), by induction over bodies nested in an induction over trees |
| C81 | `RuntimeInformation` (without its text form; times are integers), `createRuntimeInformation`, the calls of `getResult` on one operation with what the cache gives; the mappings of C46 and C49 | the writes of `setColumnNames` by induction on the map in its iteration order; the maps of all operations are shown to be bijections between variables and columns (counting for OPTIONAL and joins on many columns); the times by induction on the tree |
| C82 | the parts of `Server::processQuery` together: `parse`, `expandPrefixes` (C65, C68), the planner (C62), the execution on the files of an index that was built from the triples (C79), the rows of `composeResponseJson` (C69); DISTINCT and ORDER BY (C75) on any plan of the last row of the planner; only `setObject` and the change between the two forms of texts are new; queries without grouping and HAVING, with triples and with filters that compare a variable with a variable or a constant (`computeFilter`, `computeResultFixedValue` with the words of constants; C15), also as CSV and TSV (`composeResponseSepValues`). Whether a row passes a filter is a function of the row, which leaves out `!=` with constants (C15_not_equal_refuted) | composition of C65, C68, C79, C75 and C69: the ids of a built index are in the order of the words, so comparisons of ids are comparisons of words, the bounds of constants in the vocabulary (C52) split the words in memory as the order at the quaternary level does, the triples of the parsed query are those of the text, the answers over strings are those over texts, the columns of the plan hold the values of the selected variables |
| C83 | `IndexScan`: types, `getResultWidth`, `resultSortedOn`, `getVariableColumns`, `computeResult` with the calls of `Index::scan` (those of C79), `setObject`, and the part of `seedWithScansAndText` that makes scans, with the columns that it sets; not modelled: multiplicities | case analysis over the types; the scans are shown to be those of the planner's model (C62), and the rows follow from C79_scan |
| C84 | `HasPredicateScan`: types, `getResultWidth`, `resultSortedOn`, `getVariableColumns`, `computeResult` with the loops of C17, on an index built from triples (C79) with patterns made from the same triples (C28); the planner's scans for `ql:has-predicate`, and its replacement of a join; not modelled: multiplicities, size estimates, the text limit | the predicates of an id (C28_exact) are translated to words with the ids of the vocabulary and the bounds of the language predicates (C32); rows as words as in C79; the replaced join by induction over the input |
| C85 | `MetaDataConverter.cpp`: conversions of the maps with the verification, `writeNewPermutation` with the copying in chunks, `convertPermutationToMmap`, `convertPermutationToHmap`, the decisions of `CompressVocabAndCreateConfigurationFile`; `createFromByteBuffer` and `parseMagicNumberAndVersioning` for all versions; `Index::readConfiguration` up to the locale; not modelled: the file of a vector (C35), messages, the compression of the vocabulary | the copied bytes by induction over the chunks, for any size of the buffer; reading any sparse format gives the metadata up to the order of the blocks (lemmas of C26), its map as a vector by induction over the entries, and C26_round_trip for the new file |
| C86 | `Index::relationCardinality`, `subjectCardinality`, `objectCardinality`, `sizeEstimate`, the numbers of triples and of distinct subjects, predicates and objects, `getMultiplicities` of a permutation; `IndexScan::computeSizeEstimate` with an execution context; not modelled: the conversion of multiplicities to float, the cache of results, the constructor of the estimate for tests | the counters of the metadata are followed through the writing of each pair of permutations by induction over the relations; ids and words correspond one to one (C79), so that counting ids is counting words |
| C87 | `FTSAlgorithms::appendCrossProduct`, both overloads; hash maps and sets as functions, the multiplication of sizes modulo 2^64 | numbers in mixed radix enumerate the choices, by induction over the sub results; the postings by induction |
| C88 | `QueryPlanningCostFactors`: constructor, `readFromFile`, `getCostFactor`, with `split` of C39 and the lines of C57; `atof` and the literals are parameters | induction over the lines; the keys of the map only grow |

## What is modelled

The models cite the lines of every function. Their headers:

* `Alloc_Model.v`: Model of util/AllocatorWithLimit.h with the SpinLock of util/Synchronized.h:36-50, as an interleaving of threads. The accesses to the shared counter free_ are separate steps (first read, then write), only test_and_set and clear of the atomic flag are atomic. T is known by its size; a block of memory is (n, sz) with n the number of elements and sz = sizeof(T). Sequentially consistent memory is assumed (the flag is used with acquire/release).
* `Bind_Model.v`: Model of BIND: src/engine/Bind.cpp 103-109 (getVariableColumns), 118-181 (computeResult), 183-245 (computeBinaryOperationBind), 247-267 (computeRenameBind), 269-288 (computeConstantBind). Ids are numbers below 2^64, rows are lists of Ids. float is IEEE single precision with rounding to nearest, as in Coq's SpecFloat; there is only one NaN.
* `Cache_Model.v`: Model of util/PriorityQueue.h (HeapBasedPQ) and util/Cache.h (FlexibleCache with HeapBasedPQ, i.e. HeapBasedLRUCache, the LRUCache used by the engine: QueryExecutionContext.h:42-43). Keys and values are numbers, the ValueSizeGetter is a function [size]; the scores (time points) are numbers, the value read from the clock comes with the operation. Nodes (PqNode) live in a list and are addressed by their position, as shared_ptr<PqNode> are by their address. Simplified: nodes are never freed; HashMap is an association list; mSize++ does not wrap around (mSize-- does).
* `Card_Model.v`: Model of the numbers that the planner is told about an index: Index::relationCardinality, subjectCardinality, objectCardinality, sizeEstimate, and the size estimates of index scans and the multiplicities of those of the full index. Index scans are those of IScan_Model, the files those of Perm_Model; all six permutations are loaded. The multiplicities of a relation are those stored with it (C25).
* `Clique_Model.v`: Model of the triple graph of the query planner: src/engine/QueryPlanner.cpp 1123-1151 createTripleGraph, 2284-2307 isTextNode and identifyTextCliques, 2495-2600 collapseTextCliques, 1826-1841 getTextLeafPlan, QueryPlanner.h 29-92. - The predicate of a triple is a plain string (property paths: Path_Model). - _nodeMap is left out: the node with id i is the i-th node of _nodeStorage, in both graphs. - The iteration order of a hash map is a parameter.
* `Collate_Model.v`: Model of the string comparators: index/StringSortComparator.h. Strings are lists of bytes; the result of a comparison is its sign. ICU is a parameter.
* `ConcCache_Model.v`: Model of util/ConcurrentCache.h: any number of threads calling computeOnce / computeOncePinned, as an interleaving of atomic steps. Code between two lock operations on the shared state is one step: a section holding the lock of _cacheAndInProgressMap (Synchronized.h:145 wlock; LockPtr unlocks at the end of its scope), or one of finish, abort, getResult (which hold the mutex of the ResultInProgress). The underlying cache is the abstract LRU cache of Cache_Spec, which Cache_Thm.C21_lru proves the real one to implement. Every call is separate; a computation may itself issue calls (sub-operations of a query) and waits for them, these have the computing call as parent. Not modelled: bad_alloc in the locked sections, spurious wake-ups of the condition variable (the waiting predicate is rechecked).
* `Conv_Model.v`: Model of util/Conversions.h: value literals and index words. Strings are lists of bytes.
* `Converter_Model.v`: Model of the tool that converts old indices: MetaDataConverterMain.cpp and index/MetaDataConverter.cpp, with the reading of metadata in all formats (index/IndexMetaDataImpl.h:42-114 and 284-346). Meta_Model.v models the reading of the current format only. Not modelled: messages, the file of a memory-mapped vector (Mmap_Model.v; here it is the list of its entries), and the compression of the vocabulary (Vocab_Model.v).
* `Cross_Model.v`: Model of FTSAlgorithms::appendCrossProduct: the rows for the postings of one text record, combined with the matching rows of sub results. The ids of records, the entities and the scores are three lists; reading behind the end of one, and the modulo of 0, are None (undefined behaviour). HashMaps and HashSets are functions. size_t wraps where numbers of rows are multiplied.
* `Csv_Model.v`: Model of CompactStringVector (global/Pattern.h:88-193).
* `Docs_Model.v`: Model of the document database: src/index/Index.Text.cpp 31-68 (buildDocsDB), src/index/DocsDB.cpp (init, getTextExcerpt), src/util/File.h 132-148 (readLine), 196-218 (read), 245-252 (getLastOffset). Files are lists of bytes, writing does not fail; off_t and Id have 8 bytes. Context ids in a request are below 2^60 (line 25 of DocsDB.cpp wraps above).
* `Empty_Model.v`: Model of knownEmptyResult: which operations are declared empty without being computed, and Join::computeResult, which relies on it. src/engine/*.h (the lines are given at `known_op`), QueryExecutionTree.cpp 175-180, IndexScan.cpp 306-332, Index.cpp 1202-1263, Index.Text.cpp 1155-1203 and 1372-1403. - A tree is an operation with its inputs. What an operation computes from the results of its inputs is taken from the models of the operations (Join_Model, MultiJoin_Model, Ops_Model, ...). - Filter: a row stays or goes; the algorithms of Filter.cpp are the subject of C15. - Executions that throw have no result.
* `Factors_Model.v`: Model of QueryPlanningCostFactors: the factors with their defaults, read from a file and looked up by the planner. double is a type with a value 0, atof a function on bytes, the hash map an association list whose first entry for a key counts.
* `Filter_Model.v`: Model of engine/Filter.cpp (fixed value, range and prefix filters).
* `Fts_Model.v`: Model of src/index/FTSAlgorithms.cpp: filtering, intersection and aggregation of text postings. - A posting is a triple (context id, word or entity id, score). Where the code has three vectors of equal length that are read together, the model has one list of triples; where the code passes vectors that need not belong together (intersectTwoPostingLists, intersectKWay) they stay separate and reading past the end is `Oob`. - Score is uint16_t (global/Id.h:10): additions wrap modulo 2^16. - LOG output and reserve() calls are left out.
* `GroupBy_Model.v`: Model of engine/GroupBy.cpp and of QueryPlanner::getGroupByRow / getHavingRow.
* `Group_Model.v`: Model of QueryPlanner::optimize (engine/QueryPlanner.cpp:106-435) and of the parts of createExecutionTree (37-104) that plan a subquery. A plan is represented by its variables, by the bag of mappings that its execution gives, and by the mask of the filters that the planner has noted as applied. All plans in one row of the dynamic programming table give the same bag (C62), so one plan stands for the row; an empty row is None. Simplified: fillDpTab (2235-2272) is replaced by what C62 proves about it: the join of all inputs with all filters applied whose variables are covered. Which inputs make it throw (inputs that are not connected, ...) is the arbitrary function `refuses`, see C63. The inputs are kept in one list in the order of the pattern, while the code keeps triples and plans in two lists. An unbound value is `None` here and the id ID_NO_VALUE in the code; joins compare it like any other id. The expression of BIND is an arbitrary function with a result for all rows (see C72 for its values). The plan of a triple with three variables, which cannot be executed (C63), gets its filters here like any other plan; 64 triples, undefined in the code (C63), are an error here. Not modelled: TransPath (see C54), text, GROUP BY, HAVING, ORDER BY and the pattern trick in subqueries.
* `HasPred_Model.v`: Model of engine/HasPredicateScan.cpp and engine/CountAvailablePredicates.cpp.
* `HasScan_Model.v`: Model of the operation of engine/HasPredicateScan.cpp: its kinds, columns and result, how the planner makes it for a triple with ql:has-predicate, and how it replaces a join. The four loops over the patterns are those of HasPred_Model, the patterns those of Patterns_Model. Not modelled: size estimates, multiplicities.
* `Http_Model.v`: Model of the requests and answers of the server: src/util/Socket.h 118-143 (send), 150-196 (getHTTPRequest), src/engine/Server.cpp 110-141 (process, up to the parameters), 256-329 (parseHttpRequest, createQueryFromHttpParams). Bytes are numbers, positions are nat; npos is None.
* `IScan_Model.v`: Model of engine/IndexScan.cpp and of the part of QueryPlanner::seedWithScansAndText that makes index scans. The rest of the planner (Plan_Model) has scans as a permutation with keys; here they are as in the code: a type, and the three terms of a triple. Not modelled: the text of a scan (Keys_Model), size estimates (Empty_Model), multiplicities.
* `IdTable_Model.v`: Model of engine/IdTable.h: a table of ids in one flat vector with its own size and capacity (in rows). Static and dynamic tables behave alike here, the number of columns is t_cols in both. Memory accesses outside the vector, and through references invalidated by growing, are UB. Element type Id is N (uint64).
* `Info_Model.v`: The runtime information of operations: engine/RuntimeInformation.h and engine/Operation.h 162-192 (createRuntimeInformation), engine/Operation.cpp 91-114. Times are integers (milliseconds, Timer.h:95), the code keeps them as doubles; the text form (writeToStream) is left out.
* `Join_Model.v`: Model of src/engine/Join.cpp: join, doGallopInnerJoin, appendCrossProduct and the joins with a full scan. Column numbers are assumed to be smaller than the table widths (this is what the query planner guarantees); `col` gives 0 otherwise. Timeouts are not modelled.
* `Keys_Model.v`: Model of the textual cache keys of operations (engine/*.cpp: asString) and of what computeResult reads. Texts are lists of bytes, columns and numbers are N.
* `Lines_Model.v`: Model of the parsers that read one record per line: parser/NTriplesParser.cpp 20-107, parser/TsvParser.cpp 17-32, parser/ContextFileParser.cpp 20-44. - A file is a list of bytes. Positions in a line are numbers below 2^64; std::string::npos is 2^64 - 1 and size_t arithmetic wraps. - asserts are checked in debug builds only: the parameter `debug`.
* `Merge_Model.v`: Model of the first pass of the index build: index/VocabularyGeneratorImpl.h, index/IndexBuilderTypes.h and, of index/Index.cpp, passFileForVocabulary, writeNextPartialVocabulary, convertPartialToGlobalIds and tripleToInternalRepresentation. Words are lists of bytes. Hash maps are lists of pairs; the order in which they are iterated is covered by sorting their elements afterwards.
* `Meta_Model.v`: Model of the metadata of index permutations: index/MetaDataTypes.h, MetaDataTypes.cpp, MetaDataHandler.h, IndexMetaData.h and IndexMetaDataImpl.h. Files are lists of bytes, Id, off_t and size_t have 8 bytes.
* `Mmap_Model.v`: Model of util/MmapVector.h, util/MmapVectorImpl.h and util/BufferedVector.h. Elements are trivially copyable and given by their bytes. Files are lists of bytes. A shared mapping is the file it maps together with its length, so that writing through the mapping changes the file. System calls fail only for the reasons modelled here.
* `MultiJoin_Model.v`: Model of OptionalJoin.cpp, MultiColumnJoin.h, Minus.cpp and Engine.h (filter). Cursors into the tables are represented by the rows from the cursor to the end. Timeouts are not modelled. Table widths wa, wb are passed explicitly.
* `Ops_Model.v`: Model of engine/Union.cpp, Distinct.cpp, Sort.cpp, OrderBy.cpp and the planner's use of DISTINCT.
* `Output_Model.v`: Model of the output of results: src/engine/QueryExecutionTree.cpp 87-144 (writeResultToStream, writeResultAsJson), 199-313 (writeJsonTable, writeTable), src/engine/Server.cpp 184-188, 389-402 (composeResponseJson, the array of rows) and 411-427 (composeResponseSepValues). size_t has 64 bits. Json values are null (None) or strings; escaping them is left to the Json library.
* `PPath_Model.v`: Property paths: the parser for their text (parser/PropertyPathParser.cpp), the flag for paths that can be empty (parser/ParsedQuery.cpp) and the graph pattern that the planner makes of a path (engine/QueryPlanner.cpp). Texts are lists of bytes. Simplified: the texts of the exceptions, and the positions of the tokens that only occur in them, are left out.
* `Path_Model.v`: Model of engine/TransitivePath.cpp.
* `Patterns_Model.v`: Model of Index::createPatternsImpl (index/Index.cpp:556-867) and of reading the patterns file (index/Index.cpp:999-1088). The vectors of vectors (CompactStringVector) are lists of lists, see Csv_Thm.v. Not modelled: the two multiplicities (doubles; passed through as 8 bytes), logging.
* `Perm_Model.v`: Model of writing the permutations of the index and scanning them: index/Index.cpp 327-521, 871-982, 1136-1199, index/Index.h 376-465, index/Index.Text.cpp 1406-1426, index/StxxlSortFunctors.h, index/Permutations.h. An open file that is written is the list of the bytes written so far.
* `Pipe_Model.v`: Model of util/BatchedPipeline.h and of ParserBatcher in parser/ParallelParseBuffer.h. All values have one type (the union of the types of the stages). A task that was started with std::async is a state of the future that it fulfils. One step of the model is one call of the creator, one call of a transformer, the end of a task, or a get() on a future together with the start of the next task. A shared transformer is called atomically (it must be threadsafe, BatchedPipeline.h:136-139). Timers are left out.
* `Plan_Model.v`: Model of the part of engine/QueryPlanner.cpp that plans a basic graph pattern: the triple graph, the seeds, the joins of partial plans, pruning, filters and the table of the dynamic programming; and of the constructors of Join, TwoColumnJoin and MultiColumnJoin that the planner calls. Not modelled: text triples, ql:has-predicate, property paths other than plain predicates (see PPath_Model), plans of type OPTIONAL and MINUS, TextOperation and HasPredicateScan special cases of createJoinCandidates (2775-2783, 2886-2922, 2935-2987), binding of transitive paths (2989-3100). Arbitrary (record oracle): the string representations that order the inputs of a join, the cost estimates, and the iteration orders of the hash maps.
* `Postings_Model.v`: Model of the text posting lists on disk: src/index/Index.Text.cpp 309-387 (writePostings), 446-519 (writeList, createCodebooks, writeCodebook) and 878-935 (readGapComprList, readFreqComprList). - A posting is a triple (context, word or entity, score) as in Fts_Model. - The file is a list of bytes. writePostings appends to the file; `off` is _currentoff_t, which starts at 0 with the empty file (createTextIndex, lines 239-240). - fwrite is assumed to write everything. Positions and sizes are natural numbers. - ad_utility::File::read(buf, n, off) (util/File.h:196-218) loops until n bytes have been read: it does not return when the file ends before (`Hang`).
* `Prefix_Model.v`: Model of the computation of the compression prefixes: index/PrefixHeuristic.cpp and index/PrefixHeuristic.h. Scores and counts are unbounded.
* `Query_Model.v`: Model of the query level part of QueryPlanner::createExecutionTree (engine/QueryPlanner.cpp:37-103) with getGroupByRow (993-1036), getHavingRow (970-990), getDistinctRow (807-882) and getOrderByRow (1039-1090), for one plan of each row of the table of plans. A plan stands for its result. The operations are those of Ops_Model.v and GroupBy_Model.v. Not here: the pattern trick (Trick_Model.v), LIMIT and OFFSET, which are applied when the result is written (Output_Model.v), and the context variables.
* `Rows_Model.v`: Model of FTSAlgorithms::aggScoresAndTakeTopKContexts for rows (index/FTSAlgorithms.cpp:369-428), used by the text searches with subresults (Index.Text.cpp:1249, 1319, 1368). std::sort is a function that sorts for the comparison.
* `SLex_Model.v`: Model of the lexer for SPARQL queries: parser/SparqlLexer.h, SparqlLexer.cpp. - Texts are lists of bytes in UTF-8. A regular expression is a function that gives the length of the match at the start of the input (RE2::Consume). RE2 takes the first alternative and the longest repetition that lead to a match; none of the expressions used has another match after backtracking. - Simplified: (?i) folds the letters A to Z only, and getLowercaseUtf8 (util/StringUtils.h 244-268) changes these only. Positions, which only occur in error messages, are left out.
* `Serve_Model.v`: A query from its text to the response: engine/Server.cpp:205-236 with QueryPlanner::createExecutionTree (QueryPlanner.cpp:37-103), for queries whose pattern consists of triples and comparisons of a variable with a variable or a constant in FILTER, without grouping and HAVING. The parts are Sparql_Model (parser and prefixes), Plan_Model (planner), Whole_Model (execution on the files of an index), Query_Model (DISTINCT and ORDER BY) and Output_Model (Json). Here they are put together: the planner has terms as `string`, the others as lists of bytes.
* `Simple8b_Model.v`: Model of src/util/Simple8bCode.h.
* `Sparql_Model.v`: Model of the parser for SPARQL queries: parser/SparqlParser.cpp with ParsedQuery.h and ParsedQuery.cpp. - The parser reads its tokens from SLex_Model, property paths are parsed by PPath_Model. - Loops that end with the input get the length of the input as fuel. - Simplified: texts of exceptions, log messages, _originalString, the unused functions readTriplePart (494-541), ParsedQuery::parseAliases and ParsedQuery::merge are left out; getLowercaseUtf8 and getUppercaseUtf8 change the letters A to Z only.
* `Std_Model.v`: Library algorithms of the C++ standard library as used by QLever (trusted behaviour).
* `Strings_Model.v`: Model of src/util/StringUtils.h (startsWith, endsWith, commonPrefix, normalizeSpaces, split, splitWs, splitWsWithEscape, splitAny, join, lstrip, rstrip, strip, decodeUrl, findClosingBracket, findLiteralEnd) and of src/parser/RdfEscaping.cpp. A string is the list of its bytes (unsigned char); isspace and tolower are those of the C locale. Loops over positions are recursions on fuel; `None` (or NoFuel) means out of fuel and is excluded by the theorems. std::string::npos is None.
* `TextIndex_Model.v`: Model of the text index: src/index/Index.Text.cpp 118-306 (collecting the postings of a context file and writing the index), 390-443 (blocks), 532-694 and 796-874 (reading the postings of a term); src/index/TextMetaData.h, TextMetaData.cpp (the metadata and its bytes); StxxlSortFunctors.h 145-166 (the order of the postings). - Words and entities are ids: the look-ups in the two vocabularies are not part of this model. A line of the context file holds the id, `None` for an entity that is not in the knowledge base (Index.Text.cpp:160-170). - A hash map or set is a list of entries in the order of insertion. The order in which it is iterated does not matter: what depends on it is sorted afterwards, and the sorted vector is a relation (any permutation) in the theorems. - `TextVec v(nofLines)` (line 20) has nofLines default entries that are overwritten; that there are at least as many postings as lines is not modelled. - Files are lists of bytes; writing does not fail. off_t and size_t have 8 bytes.
* `TextOp_Model.v`: Model of src/engine/TextOperationWithoutFilter.cpp and TextOperationWithFilter.cpp: the columns of the variables and the choice of the algorithm. The postings of the words are an input (see TextIndex_Model, getContextEntityScoreListsForWords and getContextListForWords).
* `Timeout_Model.v`: Time limits: util/Timer.h, engine/Operation.cpp 47-56 (recursivelySetTimeoutTimer), 61-144 (getResult), 147-151 (checkTimeout), engine/Operation.h 143-155 (checkTimeoutAfterNCallsFactory), engine/Sort.cpp 56-69 and OrderBy.cpp 81-94 (sorts that are expected to take too long), engine/Server.cpp 175-182 and 213-219. Times are exact integers (no overflow of off_t); the messages of exceptions and the log are left out.
* `Trick_Model.v`: Model of the pattern trick: checkUsePatternTrick (engine/QueryPlanner.cpp:437-682), getPatternTrickRow (886-967), getHavingRow (970-990) and their use in createExecutionTree (37-74). The functions of CountAvailablePredicates are those of C18. Filters are comparisons of a variable with a constant (one variable in gf_vars) or with a variable (two); _additionalLhs is left out. Sorting the subjects is a function `sort`. The stack of graph patterns (549-655) is replaced by recursion. The strings of a BIND are its variables. Not modelled: ORDER BY, DISTINCT, transitive paths.
* `Turtle_Model.v`: Model of the Turtle parser: parser/TurtleParser.h, TurtleParser.cpp with the tokenizer that uses RE2 (Tokenizer.h 245-421, 669-793, Tokenizer.cpp), and the reading of the input in blocks (ParallelBuffer.h 57-95). - Bytes are numbers. A regular expression is a function that gives the length of the match at the start of the input; RE2 prefers the longest repetition, and none of the expressions used has another match after backtracking. - TokenizerCtre (relaxed parsing) is not modelled, nor are positions in error messages, logging and _baseIRI, which is written but never read.
* `Values_Model.v`: Model of VALUES: src/engine/Values.cpp 12-15 (constructor), 77-84 (getVariableColumns), 126-136 (computeResult), 138-184 (sanitizeValues), 186-219 (writeValues). Words are texts (lists of bytes), the lookup of a word in the vocabulary is a function. Warnings are left out.
* `Vars_Model.v`: Model of the mappings from variables to columns reported by the operations (getVariableColumns), and of QueryPlanner::getJoinColumns. Hash maps are association lists in their (arbitrary) iteration order.
* `Vocab_Model.v`: Model of the vocabulary of the knowledge base: index/Vocabulary.cpp, index/Vocabulary.h, index/ExternalVocabulary.cpp, index/ExternalVocabulary.h, and its use in index/Index.cpp (createFromFile, readConfiguration). Files and words are lists of bytes.
* `Whole_Model.v`: The execution of a plan on the files of an index: the operations of Plan_Model, with scans that look up their keys in the vocabulary (Vocab_Model) and read the files of the permutations (Perm_Model).

Not modelled: the SPARQL front end as far as it is not named above, the HTTP server, logging and timers, query
planning cost estimates, stxxl itself, ICU itself (its documented behaviour is the record
`icu_ok`), ASCII art and JSON output not named above, `toJson` (StringUtils.h:387-445, unused),
overflow of the nesting depth in `splitWsWithEscape` and `findClosingBracket`, wrap-around of
compression scores, the vector overload of `calculatePrefixes`, the class `ParallelParseBuffer`,
`std::pow` and float rounding in `Conversions.h` (log10 is an oracle there), old metadata format
versions, failing system calls other than those named in `Mmap_Model.v`, and other processes that
change the files.

## Trusted base

* Coq 8.16.1: its kernel, including the virtual machine (`vm_compute` is used for the concrete
  witnesses and examples).
* `Print Assumptions` after every property theorem prints "Closed under the global context": no
  theorem depends on an axiom. No axioms are declared in the development; `vcheck` lists seven axioms of
  the standard library (`Coq.ssr.ssrunder`), which are loaded but not used by any theorem.
* The transcription of the C++ code into Gallina, by reading; the cited lines can be compared.
* The specifications (`X_Spec.v`) say what the English statements of `properties.jsonl` mean.
* The assumptions about libraries listed under "Modelling conventions" and, as explicit hypotheses
  of the theorems, about ICU (`icu_ok`).

## Testing the theorems

`seeded/LOG.jsonl` has one line per seeded bug: the definition that was changed, the change, the
claim it breaks and the theorems that no longer hold. Where a theorem survived although its claim
was false, the line says how the theorem was tightened.
