{"id": "C01", "title": "Intersection area is the number of shared cells", "statement": "For two unsigned 32-bit boxes whose right/bottom edges and areas fit in 32 bits, IntersectionArea returns exactly the number of integer cells (i,j) that lie in both boxes.", "quantifier": "every pair of uint32 boxes without wrap-around", "why_tests_cant": "The pair of boxes ranges over 2^256 values; tests try five pairs.", "anchors": ["core/BoundingBox.h: BoundingBox::IntersectionArea"]}
{"id": "C02", "title": "Union area is the number of covered cells", "statement": "For two unsigned 32-bit boxes whose edges, areas and sum of areas fit in 32 bits, UnionArea returns exactly the number of integer cells that lie in at least one of the boxes.", "quantifier": "every pair of uint32 boxes without wrap-around", "why_tests_cant": "Same unbounded domain; inclusion-exclusion must hold for every relative position.", "anchors": ["core/BoundingBox.h: BoundingBox::UnionArea"]}
{"id": "C03", "title": "Intersection is symmetric, bounded and document-local", "statement": "IntersectionArea(a,b)=IntersectionArea(b,a) for every pair; it is at most the area of either box, equals Area() on (a,a), and is 0 whenever the documents differ (when edges and areas fit in 32 bits).", "quantifier": "every pair of document boxes", "why_tests_cant": "Universal algebraic law over all coordinates and document names.", "anchors": ["core/BoundingBox.h: BoundingBox::IntersectionArea", "core/DocumentBoundingBox.h: DocumentBoundingBox::IntersectionArea"]}
{"id": "C04", "title": "Geometry holds for every representable box (violated: wrap-around)", "statement": "A user may expect Area/IntersectionArea to be geometrically right for every box that can be read. It is not: as soon as x+w, y+h or w*h reaches 2^32 the result wraps, e.g. a 65536x65536 box has area 0 and a box whose right edge passes 2^32 does not intersect itself.", "quantifier": "every uint32 box; characterised exactly by the no-wrap guard", "why_tests_cant": "Tests use small coordinates only; the boundary is at 2^32.", "anchors": ["core/BoundingBox.h: BoundingBox::Area", "core/BoundingBox.h: BoundingBox::IntersectionArea"]}
{"id": "C05", "title": "Signed boxes: right answer or undefined behaviour", "statement": "For BoundingBox<int>, IntersectionArea is the number of shared cells whenever no intermediate result leaves the 32-bit signed range, and some intermediate result leaving that range is the only way to undefined behaviour; boxes of negative size have no cells.", "quantifier": "every pair of int32 boxes", "why_tests_cant": "Overflow depends on all eight coordinates.", "anchors": ["core/BoundingBox.h: BoundingBox::IntersectionArea"]}
{"id": "C06", "title": "Comparison operators of boxes, locations and events form one total order", "statement": "==, !=, <, >, <=, >= of BoundingBox, DocumentBoundingBox and Event agree with a single strict total order (lexicographic), whose equality is field-wise equality; so std::set and std::sort on them are well defined.", "quantifier": "every triple of values", "why_tests_cant": "Transitivity and totality quantify over all triples.", "anchors": ["core/BoundingBox.h: BoundingBox::operator<", "core/DocumentBoundingBox.h: DocumentBoundingBox::operator<", "core/Event.h: Event::operator<"]}
{"id": "C07", "title": "ScoredEvent < is a strict weak order without NaN scores, and only then", "statement": "Ordering by score and then by event is a strict weak order on scored events without NaN scores, whose ties are exactly the events that compare ==; >, >= and != agree with it. With a NaN score it is not a strict weak order.", "quantifier": "every triple of scored events", "why_tests_cant": "std::sort has undefined behaviour without this; it quantifies over triples and over all float values.", "anchors": ["core/ScoredEvent.h: ScoredEvent::operator<"]}
{"id": "C08", "title": "ScoredEvent <= agrees with < (violated)", "statement": "A user expects a <= b to mean not (b < a). The code's <= returns not (a < b), i.e. it is >=; it disagrees for every pair with a < b or b < a.", "quantifier": "every pair of scored events without NaN", "why_tests_cant": "Tests never call <= on unequal scored events; the claim is about every pair.", "anchors": ["core/ScoredEvent.h: ScoredEvent::operator<="]}
{"id": "C09", "title": "EventSet behaves as a mathematical set over any history", "statement": "After any sequence of Insert, Remove and Clear on the generic EventSet, Size() is the number of distinct events inserted and not removed since, and FindOverlapping(e) returns {e} if e is in the set and nothing otherwise. A set built from a range holds exactly the elements of the range.", "quantifier": "every finite sequence of operations", "why_tests_cant": "Histories are unbounded.", "anchors": ["core/EventSet.h: EventSet"]}
{"id": "C10", "title": "The document-box EventSet behaves as a mathematical set over any history", "statement": "After any sequence of Insert, Remove and Clear starting from the default-constructed set, Size() is the number of distinct events inserted and not removed since, and membership (observed through FindOverlapping) is that of the abstract set.", "quantifier": "every finite sequence of operations", "why_tests_cant": "Histories are unbounded; the implementation is a three-level map with a separate counter.", "anchors": ["core/DocumentBoundingBoxEventSet.h: EventSet::Insert", "core/DocumentBoundingBoxEventSet.h: EventSet::Remove", "core/DocumentBoundingBoxEventSet.h: EventSet::Clear", "core/DocumentBoundingBoxEventSet.h: EventSet::Size"]}
{"id": "C11", "title": "FindOverlapping returns exactly the overlapping events, largest overlap first", "statement": "FindOverlapping(e) contains exactly the stored events of the same query and document with positive intersection area with e, each once, ordered by non-increasing intersection area with ties in decreasing event order.", "quantifier": "every history of the set and every probe event", "why_tests_cant": "Quantifies over histories, probes and the unspecified behaviour of std::sort.", "anchors": ["core/DocumentBoundingBoxEventSet.h: EventSet::FindOverlapping"]}
{"id": "C12", "title": "Size of a range-constructed document-box EventSet (violated)", "statement": "A user expects EventSet(begin,end).Size() to be the number of distinct events. The range constructor never initialises the counter, so Size() reads an indeterminate value, for every range.", "quantifier": "every input range", "why_tests_cant": "A test may pass by luck: the value read is whatever memory held.", "anchors": ["core/DocumentBoundingBoxEventSet.h: EventSet::EventSet(I,I)"]}
{"id": "C13", "title": "Copying a Match preserves it; assigning a Match to itself does not (violated)", "statement": "Copy construction and assignment from a different object make the target equal to the source and leave the source unchanged. Self-assignment loses reference and hypothesis, and every assignment over a non-empty match leaks the old events.", "quantifier": "every pair of match objects and every history of assignments", "why_tests_cant": "Aliasing and leaks are properties of histories of heap states, not of one value.", "anchors": ["core/Match.h: Match::operator=", "core/Match.h: Match::Match(const Match&)"]}
{"id": "C14", "title": "Match == is an equivalence; Match != never returns (violated)", "statement": "operator== on matches without NaN is reflexive, symmetric and transitive. operator!= calls itself on the same operands, so no evaluation of it terminates on any input.", "quantifier": "every pair of matches; every number of evaluation steps", "why_tests_cant": "Non-termination for every input and every step bound cannot be tested.", "anchors": ["core/Match.h: Match::operator==", "core/Match.h: Match::operator!="]}
{"id": "C15", "title": "NH/NR classify the outcomes the matcher produces", "statement": "A false positive counts as one hypothesis and no reference, a false negative as one reference and no hypothesis, any accepted match (FP<1) as one reference, and NH and NR are never both 0 when FP and FN are in [0,1].", "quantifier": "every pair of float error values", "why_tests_cant": "Ranges over all floats including boundary values.", "anchors": ["core/MatchError.h: MatchError::NH", "core/MatchError.h: MatchError::NR", "core/Match.h: Match::MakeFalsePositive"]}
{"id": "C16", "title": "The ICDAR17 acceptance test is the 50% overlap rule", "statement": "With threshold 0.5 the scorer accepts (0,0) if the queries agree, the hypothesis area is positive and twice the intersection is at least the hypothesis area; it rejects (1,1) when the queries differ or the hypothesis is empty, and, for hypothesis areas up to 2^24, whenever twice the intersection is below the area. Above 2^24 float rounding accepts some pairs below 50%.", "quantifier": "every pair of events and all areas", "why_tests_cant": "Depends on float32 rounding of 32-bit integers; the failure needs areas above 2^24.", "anchors": ["scorer/IntersectionOverHypothesisAreaScorer.h: operator()", "tools/Icdar17KwsEval.cc: main"]}
{"id": "C17", "title": "IoU scorer accepts exactly when rounded IoU reaches the threshold", "statement": "For boxes without wrap-around and union area at most 2^24, the IoU scorer accepts iff the queries agree, the hypothesis has positive area and the float nearest to intersection/union is at least the threshold; with threshold 0.5 this is exactly 2*intersection >= union. It is symmetric in the two boxes when both have positive area.", "quantifier": "every pair of events, every threshold", "why_tests_cant": "Quantifies over all boxes and thresholds under float rounding.", "anchors": ["scorer/IntersectionOverUnionAreaScorer.h: operator()"]}
{"id": "C18", "title": "Soft scorer errors are fractions; exact extremes", "statement": "For boxes without wrap-around the soft scorer returns FP and FN in [0,1], both 0 for identical non-empty boxes, (1,1) when queries differ or boxes do not intersect. A hypothesis inside a far larger reference can get (0,1), which makes NH report 0 hypotheses.", "quantifier": "every pair of events", "why_tests_cant": "Rounding over all area ratios.", "anchors": ["scorer/SoftBoundingBoxScorer.h: operator()"]}
{"id": "C19", "title": "Trivial scorer accepts exactly equal events", "statement": "TrivialScorer returns (0,0) iff query and location are equal and (1,1) otherwise.", "quantifier": "every pair of events", "why_tests_cant": "Universal.", "anchors": ["scorer/TrivialScorer.h: operator()"]}
{"id": "C20", "title": "Matching is one-to-one", "statement": "In the result of Match, no reference is paired with two hypotheses and no input hypothesis (by position) is paired with two references; every pair was returned by the overlap search and has scorer FP < 1.", "quantifier": "every list of references and hypotheses, every scorer", "why_tests_cant": "Quantifies over all inputs and all scorers.", "anchors": ["matcher/SimpleMatcher.h: SimpleMatcher::Match"]}
{"id": "C21", "title": "Every distinct reference appears exactly once in the result", "statement": "The references present in the result (as matches or as false negatives) are exactly the distinct input references, each once.", "quantifier": "every list of references and hypotheses, every scorer", "why_tests_cant": "Universal over inputs.", "anchors": ["matcher/SimpleMatcher.h: SimpleMatcher::Match"]}
{"id": "C22", "title": "Every hypothesis is a hit, a false positive or a repetition", "statement": "The hypotheses present in the result are a subsequence of the input in the same order. A hypothesis is reported as a false positive iff no overlapping reference is acceptable to the scorer, and is missing iff it has acceptable references and all of them were taken by earlier hypotheses.", "quantifier": "every list of references and hypotheses, every scorer", "why_tests_cant": "Universal over inputs.", "anchors": ["matcher/SimpleMatcher.h: SimpleMatcher::Match"]}
{"id": "C23", "title": "Effective counts: references exactly, hypotheses at most", "statement": "The sum of NR over the result is the number of distinct references, whatever the hypotheses; the sum of NH is at most the number of hypotheses, so the tool's 'This should not happen ever' branch is unreachable.", "quantifier": "every input and every scorer", "why_tests_cant": "Unreachability is a universal statement.", "anchors": ["matcher/SimpleMatcher.h: SimpleMatcher::Match", "tools/GenericKwsEvalTool.h: Main"]}
{"id": "C24", "title": "Each hypothesis takes the largest acceptable free overlap", "statement": "A hypothesis is paired with the first reference, in the order of the overlap search, that is acceptable and not taken by an earlier hypothesis; with document boxes no free acceptable reference has larger intersection area.", "quantifier": "every input, every scorer", "why_tests_cant": "Universal over inputs.", "anchors": ["matcher/SimpleMatcher.h: SimpleMatcher::Match", "core/DocumentBoundingBoxEventSet.h: EventSet::FindOverlapping"]}
{"id": "C25", "title": "A matcher can be reused: results do not depend on earlier calls", "statement": "The result of Match and of a following GetRepeatedMatches depend only on the arguments of that call, for any history of earlier Match calls on the same object.", "quantifier": "every history of Match calls", "why_tests_cant": "Histories are unbounded.", "anchors": ["matcher/SimpleMatcher.h: SimpleMatcher::Match", "matcher/SimpleMatcher.h: SimpleMatcher::GetRepeatedMatches"]}
{"id": "C26", "title": "Order and duplication of references do not matter", "statement": "Two reference lists with the same elements give the same Match result, element by element.", "quantifier": "every pair of lists with the same elements", "why_tests_cant": "Quantifies over all permutations.", "anchors": ["matcher/SimpleMatcher.h: SimpleMatcher::Match"]}
{"id": "C27", "title": "Later hypotheses never change earlier decisions", "statement": "Appending hypotheses to the list keeps all earlier hits and false positives, in place; only false negatives can turn into hits.", "quantifier": "every input and every extension of it", "why_tests_cant": "Relates every pair of runs.", "anchors": ["matcher/SimpleMatcher.h: SimpleMatcher::Match"]}
{"id": "C28", "title": "The repeated-match log holds exactly the acceptable pairs whose reference was taken", "statement": "GetRepeatedMatches lists, in order, each acceptable (reference, hypothesis) pair that was examined while the reference was already taken; each hypothesis missing from the result appears in it.", "quantifier": "every input", "why_tests_cant": "Universal over inputs.", "anchors": ["matcher/SimpleMatcher.h: SimpleMatcher::GetRepeatedMatches"]}
{"id": "C29", "title": "Grouping by query group is an order-preserving partition", "statement": "GroupMatchesByQueryGroup puts every match in exactly one group, keeps the order inside groups, produces no empty group, orders groups by first appearance, and puts two matches together iff their queries have the same group (a query without group being its own group).", "quantifier": "every list of matches and every query-to-group map", "why_tests_cant": "Universal over lists and maps.", "anchors": ["core/Assessment.h: GroupMatchesByQueryGroup"]}
{"id": "C30", "title": "Collapsing preserves totals and makes one point per score", "statement": "CollapseMatches preserves the totals of NH and NR, keeps FP<=NH and FN<=NR in every point even under float32 rounding, yields one point per run of equal scores and, on lists sorted by decreasing score, one point per distinct score. FP and FN are exact integers for 0/1 errors in runs shorter than 2^24.", "quantifier": "every list of matches", "why_tests_cant": "Float accumulation over unbounded runs.", "anchors": ["core/Assessment.h: CollapseMatches", "core/MatchErrorCounts.h: MatchErrorCounts::operator+="]}
{"id": "C31", "title": "With collapsing, results do not depend on how ties are broken", "statement": "For 0/1 errors, any two orderings of the same matches by decreasing score have the same collapsed points, hence the same AP and NDCG. Without collapsing this is false.", "quantifier": "every list of matches and every pair of sorted arrangements", "why_tests_cant": "Quantifies over every behaviour std::sort may have.", "anchors": ["core/Assessment.h: CollapseMatches", "core/Assessment.h: SortMatchesDecreasingScore"]}
{"id": "C32", "title": "Precision and recall are what they should be", "statement": "At every point precision is (hypotheses seen - false positives)/(hypotheses seen), or 1 before any hypothesis, and recall is (references seen - misses)/(all references), or 1 without references; both are in [0,1] and recall never decreases.", "quantifier": "every list of error counts with 0<=FP<=NH, 0<=FN<=NR", "why_tests_cant": "Universal over lists; monotonicity is relational.", "anchors": ["core/Assessment.h: ComputePrecisionAndRecall"]}
{"id": "C33", "title": "Interpolated precision is the best precision at equal or higher recall", "statement": "With interpolation, the precision at point i is the maximum of the raw precisions at points j>=i; it never increases along the curve and never is below the raw precision; without interpolation it is the raw precision.", "quantifier": "every list of errors", "why_tests_cant": "Universal over lists.", "anchors": ["core/Assessment.h: ComputePrecisionAndRecall"]}
{"id": "C34", "title": "AP is the area under the precision/recall steps and lies in [0,1]", "statement": "ComputeAP(pr,rc) equals the sum of pr[i]*(rc[i]-rc[i-1]) (or of the trapezoids), with rc[-1]=0; for curves made by ComputePrecisionAndRecall it is in [0,1], and curves of different lengths are a precondition violation.", "quantifier": "every pair of curves", "why_tests_cant": "Universal over curves; telescoping over unbounded length.", "anchors": ["core/Assessment.h: ComputeAP"]}
{"id": "C35", "title": "Plain AP is the textbook average precision", "statement": "Without collapsing, interpolation and trapezoids, for 0/1 errors, ComputeGlobalAP is the mean, over all references, of the precision at the rank where the reference was found (0 if it was not).", "quantifier": "every ranked list of hits, false positives and misses", "why_tests_cant": "Universal over rankings.", "anchors": ["core/Assessment.h: ComputeGlobalAP", "core/Assessment.h: ComputeAP"]}
{"id": "C36", "title": "The two AP definitions agree", "statement": "The error-based and the curve-based ComputeAP agree on 0/1 errors, for every option; for soft errors they can differ.", "quantifier": "every list of errors", "why_tests_cant": "Universal over lists.", "anchors": ["core/Assessment.h: ComputeAP"]}
{"id": "C37", "title": "AP is 1 exactly for perfect rankings", "statement": "For 0/1 errors with at least one reference, AP without collapsing is 1 iff every reference is found and no false positive precedes a hit.", "quantifier": "every ranking", "why_tests_cant": "An iff over all rankings.", "anchors": ["core/Assessment.h: ComputeAP"]}
{"id": "C38", "title": "Degenerate inputs have defined values", "statement": "With no matches AP and NDCG are 0; with hypotheses but no reference AP and NDCG are 0; with references but no hypotheses AP and NDCG are 0.", "quantifier": "every number of hypotheses or references", "why_tests_cant": "Universal over sizes.", "anchors": ["core/Assessment.h: ComputeAP", "core/Assessment.h: ComputeNDCG"]}
{"id": "C39", "title": "NDCG lies in [0,1] and is 1 for perfect rankings", "statement": "For errors with 0<=FP<=NH whose total hits do not exceed the references, NDCG is at least 0 and at most 1 (for collapsed points, under a bound on run length that keeps float32 rounding harmless), and equals 1 when all references are found first.", "quantifier": "every list of errors", "why_tests_cant": "Real-analysis inequality over all lists.", "anchors": ["core/Assessment.h: ComputeNDCG"]}
{"id": "C40", "title": "Mean statistics are arithmetic means over groups", "statement": "mAP and mNDCG are the arithmetic mean over groups of the statistic of each group, lie between the smallest and largest group value, are 0 without groups and do not depend on the order of groups.", "quantifier": "every list of groups", "why_tests_cant": "Universal over lists.", "anchors": ["core/Assessment.h: ComputeMeanAP", "core/Assessment.h: ComputeMeanNDCG"]}
{"id": "C41", "title": "Only the ranking matters", "statement": "Applying a strictly increasing function to all scores changes neither the matches' order nor any metric.", "quantifier": "every input and every strictly increasing score transformation", "why_tests_cant": "Quantifies over functions.", "anchors": ["core/Assessment.h: CollapseMatches", "tools/GenericKwsEvalTool.h: Main"]}
{"id": "C42", "title": "Sampled curves are the interpolated curve", "statement": "With increasing sample points on a non-decreasing recall curve, step sampling returns the value at the first curve point with recall >= x, 0 beyond the last; together with interpolated precision this is the maximum precision at recall >= x. Linear sampling stays between the neighbouring values and hits the curve points.", "quantifier": "every curve and every increasing list of sample points", "why_tests_cant": "The shared cursor makes correctness depend on the whole history of the loop.", "anchors": ["core/Assessment.h: SampleCurveAtGivenPoints"]}
{"id": "C43", "title": "Evenly distributed points", "statement": "n>1 points are 0=x0<...<x(n-1)=1 with equal spacing; n<=1 gives none.", "quantifier": "every n", "why_tests_cant": "Universal over n.", "anchors": ["core/Assessment.h: GetEvenlyDistributedPoints01Interval"]}
{"id": "C44", "title": "Mean recall-precision curve", "statement": "The mean curve is the pointwise mean of the group curves and in [0,1] when there is a group; with no group every written value is NaN (violated expectation of a number).", "quantifier": "every list of groups and number of points", "why_tests_cant": "Universal.", "anchors": ["tools/GenericKwsEvalTool.h: WriteMeanRPCurve"]}
{"id": "C45", "title": "SortMatchesDecreasingScore is a sort with misses last", "statement": "On matches without NaN scores the comparator is a strict weak order and the result is a permutation with non-increasing scores and all matches without hypothesis at the end; matches produced from a descending hypothesis list already are in this order.", "quantifier": "every list of matches; every conforming std::sort", "why_tests_cant": "Quantifies over sort implementations.", "anchors": ["core/Assessment.h: SortMatchesDecreasingScore"]}
{"id": "C46", "title": "Precision and recall stay in [0,1] and monotone in double arithmetic", "statement": "With Real=double and rounding at each operation, for 0/1 errors and fewer than 2^53 matches, precision and recall stay in [0,1], recall never decreases and interpolated precision never increases.", "quantifier": "every list of 0/1 errors", "why_tests_cant": "Rounding at unbounded many steps.", "anchors": ["core/Assessment.h: ComputePrecisionAndRecall"]}
{"id": "C47", "title": "AP in double arithmetic (violated bound, proved error)", "statement": "ComputeAP in double arithmetic can return a value above 1 for a perfect ranking; its distance to the exact AP is bounded by an explicit function of the number of points.", "quantifier": "every list of 0/1 errors", "why_tests_cant": "Error bound for all lengths; the violation needs a specific length.", "anchors": ["core/Assessment.h: ComputeAP"]}
{"id": "C48", "title": "By-query bootstrap samples are resamples of groups", "statement": "Each sample has as many groups as the original; each of its groups is drawn from one original group, has that group's size and contains only its matches, for every random draw; groups without matches and empty inputs are handled.", "quantifier": "every original sample and every sequence of random draws", "why_tests_cant": "Quantifies over all random streams.", "anchors": ["core/Bootstrapping.h: MatchesByQuerySampler"]}
{"id": "C49", "title": "MatchesSampler draws a sample of the original size (violated)", "statement": "A user expects as many matches as the original. The sampler returns the vector resized to n (padding with default matches that count as hits) followed by n drawn matches.", "quantifier": "every original sample and random stream", "why_tests_cant": "Universal; class is not used by any test.", "anchors": ["core/Bootstrapping.h: MatchesSampler"]}
{"id": "C50", "title": "Bootstrap interval: definition, order, and exact safety conditions", "statement": "The interval is [obs - d(li), obs - d(ui)] with d the sorted deviations of the samples and li, ui the percentile indices of 1-alpha/2 and alpha/2 in double; lower <= upper when alpha<=1; with a finite statistic and at most 2^53 repetitions it is computed exactly when there is at least one repetition and 2^-53 < alpha < 2; in every other case (0 repetitions, alpha NaN or infinite, at most 2^-53, or at least 2) an element outside the vector is read (undefined behaviour).", "quantifier": "every sample, statistic, alpha, repetition count and random stream", "why_tests_cant": "Index arithmetic in doubles; boundary values of alpha.", "anchors": ["core/Bootstrapping.h: ComputePercentileBootstrapCI"]}
{"id": "C51", "title": "Asking for a confidence interval does not change the point estimate (violated in part)", "statement": "With --sort desc and collapsing the values of gAP, mAP, gNDCG and mNDCG printed with bootstrap equal the values printed without, for 0/1 errors; with --sort asc or without collapsing they can differ.", "quantifier": "every input", "why_tests_cant": "Relates two runs for all inputs.", "anchors": ["tools/GenericKwsEvalTool.h: ComputeGlobalStatistic", "tools/GenericKwsEvalTool.h: ComputeMeanStatistic"]}
{"id": "C52", "title": "String ids: stable, distinct, dense", "statement": "Over any history of calls StringToIntMapper returns the same id for the same string, different ids for different strings, ids 0,1,2,... in order of first appearance, and throws exactly when a new string arrives with all values of the type used; throwing changes nothing.", "quantifier": "every history of calls", "why_tests_cant": "Histories are unbounded.", "anchors": ["mapper/StringToIntMapper.h: StringToIntMapper::operator()"]}
{"id": "C53", "title": "Capacity for 64-bit unsigned ids (violated)", "statement": "A user expects 2^64 ids for uint64_t. The capacity constant wraps to 0 and every first call throws.", "quantifier": "every history of calls", "why_tests_cant": "Depends on the integer type's limits.", "anchors": ["mapper/StringToIntMapper.h: kMaxSize"]}
{"id": "C54", "title": "Injectivity with a caller-supplied map (violated in part)", "statement": "With a supplied map the ids stay distinct for every history exactly if the map's values are distinct and below its size; otherwise some history gives two strings the same id.", "quantifier": "every initial map and history", "why_tests_cant": "Histories with arbitrary initial state.", "anchors": ["mapper/StringToIntMapper.h: StringToIntMapper(Impl*)"]}
{"id": "C55", "title": "Ownership of the id table", "statement": "In any history of construction, copy construction, hand-over of tables, use and destruction of mappers the allocated tables are exactly those the caller kept and those owned by one mapper each, so each owned table is freed exactly once; with assignment of mappers a table is leaked and another freed twice, and a copy used after its original is destroyed reads a freed table.", "quantifier": "every history of object operations", "why_tests_cant": "Histories of aliasing objects.", "anchors": ["mapper/StringToIntMapper.h: ~StringToIntMapper"]}
{"id": "C56", "title": "Event mappers preserve equality and score", "statement": "Mapping events through one shared mapper keeps two events equal iff they were equal and keeps scores, regardless of the order in which query and location are mapped.", "quantifier": "every sequence of events; both evaluation orders", "why_tests_cant": "Quantifies over histories and unspecified evaluation order.", "anchors": ["mapper/StringEventToIntMapper.h: operator()", "mapper/ScoredEventMapper.h: operator()"]}
{"id": "C57", "title": "Written events are read back", "statement": "Reading the text produced by operator<< for a list of reference events (one per line) returns that list, provided queries and documents are non-empty, have no white space and the query does not start with '#'.", "quantifier": "every list of events", "why_tests_cant": "Round trip over unbounded values.", "anchors": ["reader/PlainTextMapEventReader.h: Read", "core/Event.h: operator<<", "core/Event.h: operator>>", "core/BoundingBox.h: operator>>", "core/DocumentBoundingBox.h: operator>>"]}
{"id": "C58", "title": "Comments, blank lines, indentation, trailing blanks and missing final newline do not matter", "statement": "Inserting comment or blank lines, adding blanks (including CR) at the start or end of lines, or dropping the final newline does not change the events read.", "quantifier": "every file and every such edit", "why_tests_cant": "Relates all pairs of files.", "anchors": ["reader/PlainTextMapEventReader.h: Read"]}
{"id": "C59", "title": "A malformed line fails the read, at the first such line (earlier events survive only a file that cannot be opened)", "statement": "Read returns true iff every non-comment, non-blank line parses completely; otherwise it returns false, reports the number of the first bad line and leaves the events of the lines before it. Events of an earlier read do not survive, except (violated) when the file cannot be opened: then Read(filepath) returns false and leaves the old events in the vector.", "quantifier": "every file content", "why_tests_cant": "Universal over byte strings.", "anchors": ["reader/PlainTextMapEventReader.h: Read"]}
{"id": "C60", "title": "Scores read are finite and order-preserving", "statement": "A successfully read score is a finite float (never NaN or infinity), equal to the decimal value rounded to nearest; so larger decimals never read as smaller scores.", "quantifier": "every text of a score", "why_tests_cant": "Universal over decimal strings; needed for sort safety.", "anchors": ["core/ScoredEvent.h: operator>>"]}
{"id": "C61", "title": "Every event line is an event (violated: queries starting with '#')", "statement": "An event whose query starts with '#' is written without complaint and dropped on reading.", "quantifier": "every such event", "why_tests_cant": "The silent drop is invisible to tests that don't use such names.", "anchors": ["reader/PlainTextMapEventReader.h: Read"]}
{"id": "C62", "title": "Command line: accepted exactly by the grammar", "statement": "Parse succeeds iff the arguments are a sequence of known options with acceptable values, optionally '--', then between the mandatory and the total number of positional values, all acceptable; the final values are those of left-to-right assignment; values go to the mandatory and then to the optional arguments, each in the order of registration.", "quantifier": "every argument vector and registered option table", "why_tests_cant": "Universal over argument vectors.", "anchors": ["cmd/Parser.h: Parser::Parse", "cmd/Parser.h: Parser::RegisterArgument", "cmd/Parser.h: Parser::RegisterOptArgument"]}
{"id": "C63", "title": "Unmentioned options keep their defaults; the last mention wins", "statement": "After a successful Parse an option never mentioned has its initial value, and an option mentioned several times has the value of its last mention.", "quantifier": "every argument vector", "why_tests_cant": "Universal.", "anchors": ["cmd/Parser.h: Parser::Parse"]}
{"id": "C64", "title": "Numeric option values are validated (violated)", "statement": "A user expects Parse to succeed only for numbers in range. It succeeds iff the reader reaches the end of the text, so empty text, a lone sign and out-of-range numbers are accepted (as 0, 0 and the type's limit) and negative numbers wrap for unsigned types; trailing garbage is rejected and canonical numerals in range read correctly.", "quantifier": "every text", "why_tests_cant": "Universal over strings.", "anchors": ["cmd/Option.h: Option::Parse"]}
{"id": "C65", "title": "--help exits before positional arguments are looked at", "statement": "If --help occurs among the options and all options before the end of the option section are acceptable, the program prints the help and exits with status 0 whatever the positional arguments are; otherwise the first bad option fails the parse.", "quantifier": "every argument vector", "why_tests_cant": "Universal.", "anchors": ["cmd/Parser.h: Parser::Parse"]}
{"id": "C66", "title": "Options need two dashes (violated)", "statement": "Any argument of length >= 2 starting with '-' is an option whose name starts at the third character, so '-xNAME' is the same as '--NAME' for every character x, and negative numbers cannot be first positional values without '--'.", "quantifier": "every option name and character", "why_tests_cant": "Universal.", "anchors": ["cmd/Parser.h: Parser::Parse"]}
{"id": "C67", "title": "Option names are unique and help is reserved", "statement": "RegisterOption returns false and changes nothing iff the name is 'help' or already registered; otherwise exactly that option is added; the help text lists options in increasing name order; after any calls, the option of a name is that of the first call with this name, and the arguments are those registered, in order.", "quantifier": "every history of registrations", "why_tests_cant": "Histories.", "anchors": ["cmd/Parser.h: Parser::RegisterOption", "cmd/Parser.h: Parser::Help", "cmd/Parser.h: Parser::RegisterArgument", "cmd/Parser.h: Parser::RegisterOptArgument"]}
{"id": "C68", "title": "Exit status of the tools", "statement": "A run that is not asked for help exits 0 only after printing all four statistics, in the order gAP, mAP, gNDCG, mNDCG; it exits 1 without printing any statistic when arguments are bad, an input cannot be opened or parsed, the query groups are malformed, or the matches file cannot be written. --help exits 0 and prints no statistic. In SimpleKwsEval more than 2^31 distinct strings end the run with an uncaught exception instead.", "quantifier": "every argument vector and file system", "why_tests_cant": "Universal over environments.", "anchors": ["tools/GenericKwsEvalTool.h: Main"]}
{"id": "C69", "title": "Query sets and groups filter both inputs (violated for an empty set)", "statement": "With a non-empty query set (or groups) exactly the events whose query is listed are kept, in order, in both references and hypotheses, and --query_groups supersedes --query_set; with an empty query-set file nothing is filtered.", "quantifier": "every query file and events", "why_tests_cant": "Universal.", "anchors": ["tools/GenericKwsEvalTool.h: filter_events", "tools/GenericKwsEvalTool.h: Main"]}
{"id": "C70", "title": "Query groups file semantics", "statement": "Each line 'group q1 ... qn' assigns the group to its queries, the last line naming a query wins, and any line with fewer than two words (also a blank one) makes the tool fail; after filtering, two matches are in the same group iff the file assigns their queries the same group.", "quantifier": "every groups file", "why_tests_cant": "Universal.", "anchors": ["tools/GenericKwsEvalTool.h: Main", "core/Assessment.h: GroupMatchesByQueryGroup"]}
{"id": "C71", "title": "Line order of the input files does not matter (ICDAR17 tool, default sort; violated by SimpleKwsEval)", "statement": "Permuting the lines of the hypotheses file, or permuting or repeating the lines of the references file, changes no match and no printed statistic. It may change the sign of a zero score in the dumped matches, and in SimpleKwsEval without collapsing it may change the statistics (ids depend on the order of the lines).", "quantifier": "every pair of files that differ by such a permutation", "why_tests_cant": "Relates all pairs of runs; depends on total tie-breaking.", "anchors": ["tools/GenericKwsEvalTool.h: Main", "tools/Icdar17KwsEval.cc: main"]}
{"id": "C72", "title": "The tools do not reach undefined behaviour on any file contents (violated by bootstrapping an unusable confidence level)", "statement": "For every reference, hypothesis and query file, with bootstrapping off, the tools reach no undefined behaviour: in particular every std::sort call gets a strict weak order and no absent reference or hypothesis is dereferenced. With bootstrapping on, a confidence level outside (0,1) can index out of range.", "quantifier": "every file content", "why_tests_cant": "Universal over inputs.", "anchors": ["tools/GenericKwsEvalTool.h: Main"]}
{"id": "C73", "title": "Printed gAP and mAP are the specified metrics of the matches", "statement": "With default options the printed gAP is the trapezoid area under the interpolated precision of the collapsed ranking of the matches, and mAP is the mean of that quantity over queries or groups; on the shipped example they are 0.25 and 0.1666... In double arithmetic gAP and mAP are finite and within an explicit bound of the specified values.", "quantifier": "every pair of files", "why_tests_cant": "End-to-end composition over all inputs.", "anchors": ["tools/GenericKwsEvalTool.h: Main", "examples/Icdar17KwsEval/hyp.txt"]}
{"id": "C74", "title": "Evaluating ids equals evaluating strings (SimpleKwsEval)", "statement": "The matches of SimpleKwsEval are, up to renaming of strings by the injective id table, the matches obtained by comparing the strings themselves: a hypothesis is a hit iff it is the first of its (query, location) pair in the ranking and the pair is a reference.", "quantifier": "every pair of files", "why_tests_cant": "Simulation over all inputs.", "anchors": ["tools/SimpleKwsEval.cc: main", "mapper/StringEventToIntMapper.h: operator()"]}
{"id": "C75", "title": "Curve files", "statement": "A written curve has one line per sample point with the x values 0..1 evenly spaced and, as y, the value of the precision-recall curve of the matches or the mean of the curves of the groups; an empty file name or lists of different length throw before any file is opened; with fewer than two sample points the file is empty. The mean curve of no groups is not defined: with no match at all every y written is NaN.", "quantifier": "every curve", "why_tests_cant": "Universal.", "anchors": ["core/Assessment.h: WriteCurveToFile", "tools/GenericKwsEvalTool.h: WriteGlobalRPCurve"]}
{"id": "C76", "title": "Dumped matches are the matches", "statement": "The dump file is the first output of a run and holds every match of the evaluation in order, then the repeated matches; the only other files written are the named curve files.", "quantifier": "every input", "why_tests_cant": "Universal.", "anchors": ["tools/GenericKwsEvalTool.h: Main", "core/Match.h: operator<<"]}
{"id": "C77", "title": "The command line of the tools", "statement": "A command line is accepted exactly when it is a sequence of the 17 known options (a dash, any character, normally another dash, and the name; with a value acceptable for the type, which a flag may omit), optionally '--', followed by one or two positional arguments; each field of the configuration is the value given last to its option, else the documented default (descending sort, collapse/interpolation/trapezoid on, ...). Help is printed with status 0 exactly when --help occurs among acceptable options before; everything else is refused with status 1.", "quantifier": "every list of arguments", "why_tests_cant": "Infinitely many command lines; equivalence, not implication.", "anchors": ["cmd/Parser.h: Parse", "cmd/Option.h", "cmd/Argument.h", "tools/GenericKwsEvalTool.h: Main"]}
{"id": "C78", "title": "Numbers as text", "statement": "A finite double or float is printed as the unique shortest decimal text of its value rounded to six significant digits (ties to even), with an exponent exactly for nonzero values below 10^-4 or from 10^6 on; in curve files as the unique scientific text with seven digits. Printing is monotone, exact for numbers with few digits and off by half a unit of the last digit at most. A score read from a text of at most six digits is printed as the same number, and a printed score can be read again and is then printed the same way, if not tiny.", "quantifier": "every finite double and float", "why_tests_cant": "All 2^64 doubles; correct rounding.", "anchors": ["core/ScoredEvent.h: operator<<", "core/Assessment.h: WriteCurveToFile", "tools/GenericKwsEvalTool.h: ComputeGlobalStatistic"]}
{"id": "C79", "title": "The dump file as text", "statement": "The dump file consists of one line per match, 'Match[Hyp=..., Ref=..., Error=MatchError[fp=, fn=, nh=, nr=]]' without the missing parts, then the separator, then one line '## ' + match per repeated match; events, ids, scores and counts are written as decimal text and no line contains a newline. A line determines its match and the file determines both lists of matches, up to six digits of scores and errors. Both programs write exactly this for the matches of their evaluation, whatever the other options.", "quantifier": "every match, every pair of input files and command line with a dump file that is not also a curve file", "why_tests_cant": "Injectivity of a text format over all matches; all inputs.", "anchors": ["tools/GenericKwsEvalTool.h: Main", "core/Match.h: operator<<", "core/MatchError.h: operator<<", "core/ScoredEvent.h: operator<<", "core/Event.h: operator<<"]}
{"id": "C80", "title": "The printed statistics and curves as text", "statement": "Standard output is one line per statistic, 'name = value' with six digits and ' [lower, upper]' if an interval was computed. Without intervals it is exactly four lines gAP, mAP, gNDCG, mNDCG, and the gAP and mAP shown differ from the specified real numbers by at most the error bound of double arithmetic plus half a unit of the sixth digit (less than 10^-5 for up to 100000 events), and are shown exactly if they have at most six digits and are not tiny. Curve files have one line per sample point with the evenly spaced recalls in scientific notation. On the shipped example the output begins 'gAP = 0.25', 'mAP = 0.166667'.", "quantifier": "every pair of input files and command line", "why_tests_cant": "Error bounds for all inputs.", "anchors": ["tools/GenericKwsEvalTool.h: ComputeGlobalStatistic, ComputeMeanStatistic", "core/Assessment.h: WriteCurveToFile"]}
{"id": "C81", "title": "Exit status and error messages agree", "statement": "Whenever one of the programs ends with status 1, some line on the standard error stream starts with 'ERROR: '. Conversely a run on a well-formed command line that prints such a line ends with status 1, if the names of the query files and the sorting criterion contain no newline. Both a newline in the criterion, and the claim that a failure names its source (with any option, a failure on the standard input is reported as file \"\"), are refuted by example.", "quantifier": "every command line, file system and standard input", "why_tests_cant": "All runs, including every way to fail.", "anchors": ["tools/GenericKwsEvalTool.h: Main", "cmd/Parser.h: Parse", "reader/PlainTextReader.h: Read"]}
{"id": "C82", "title": "The transcript on standard error", "statement": "The messages of a run on a well-formed command line are exactly: the number of reference events or the failure; the same for the hypotheses; the number of distinct queries listed or the failure; then, only if no failure occurred, the number of references and of hypotheses kept where it differs from the number read, the number of distinct groups if a group file lists any query, a warning for an unknown sorting criterion, 'INFO: Computing matches...', and then either the failure to write the dump, or the number of hypotheses in the matches where it differs from the number kept. The message that there are more hypotheses than before never appears.", "quantifier": "every well-formed command line, file system and standard input", "why_tests_cant": "All inputs and all combinations of options.", "anchors": ["tools/GenericKwsEvalTool.h: Main", "reader/PlainTextReader.h: Read"]}
{"id": "C83", "title": "NDCG in double arithmetic", "statement": "If exp2 and log2 have a relative error of at most 2^-52 and never fall below 1 where the exact values do not, then for n <= 2^25 matches with 0/1 errors (n <= 2^19 if matches of equal score are collapsed) the NDCG computed in double arithmetic is a finite number at most 3 n (n + 12) 2^-53 away from the specified value, which lies in [0,1]; the mean over k groups of at most n matches is at most (3 n (n + 12) + k + 3) 2^-53 away. Up to 2^51 matches the value is finite and not negative. The gNDCG and mNDCG both programs print obey these bounds.", "quantifier": "every list of matches, every accurate exp2/log2, every command line and input files", "why_tests_cant": "Rounding errors of all inputs and sizes.", "anchors": ["core/Assessment.h: NDCG", "core/Assessment.h: ComputeGlobalNDCG", "core/Assessment.h: ComputeMeanNDCG", "tools/GenericKwsEvalTool.h: Main"]}
{"id": "C84", "title": "Runs with confidence intervals", "statement": "On readable inputs with up to 2^25 events, at most 2^53 samples, and accurate exp2/log2, a run of either program in double arithmetic reaches undefined behaviour exactly if some interval is asked for and the number of samples is 0 or alpha is not a number above 2^-53 and below 2. Otherwise it prints the four statistics in order; a line has an interval exactly if its option is given; all intervals of a run use the same samples, the first ones the engine seeded with the seed option yields; the bounds are the value less two of the sorted differences between the statistic of resamples of the groups and the value, at the percentile positions; values and bounds are finite, and in order if alpha <= 1; and the run ends with status 0, or with the exception about a curve file exactly if one named cannot be written.", "quantifier": "every command line, file system, standard input, random generator and sorting algorithm", "why_tests_cant": "All random samples; the definedness of all intermediate float values.", "anchors": ["tools/GenericKwsEvalTool.h: ComputeMeanStatistic", "tools/GenericKwsEvalTool.h: ComputeGlobalStatistic", "core/Bootstrapping.h: ComputeBootstrapCI"]}
{"id": "C85", "title": "The random engine of the bootstrap", "statement": "std::default_random_engine of libstdc++ runs through all 2^31 - 2 values from any seed before it repeats. uniform_int_distribution(0, n-1), for 0 < n < 2^31 - 1, always ends; its result is the number of the stretch, out of n disjoint stretches of equal length that leave out at most n values, of the first value of the engine that lies in a stretch. A bootstrap sample consists of groups whose numbers are drawn so, each followed by draws of the numbers of its members. Two seeds start the engine alike exactly if they are equal modulo 2^31 - 1, but that 0 counts as 1.", "quantifier": "every state, seed, n, list of groups and number of samples", "why_tests_cant": "The period and the rejection loop range over 2^31 states.", "anchors": ["core/Bootstrapping.h: MatchesByQuerySampler", "core/Bootstrapping.h: MatchesSampler"]}
{"id": "C86", "title": "What the seed of a run decides", "statement": "With the engine of libstdc++, two command lines whose options differ only in the bootstrap seed, with seeds that start the engine alike, give the same run of either program: the same messages, files, printed lines and status. If no interval is asked for, seed and engine do not matter at all.", "quantifier": "every pair of well-formed command lines, file system, standard input, arithmetic and sorting algorithm", "why_tests_cant": "All inputs and all 2^64 seeds.", "anchors": ["tools/GenericKwsEvalTool.h: Main", "core/Bootstrapping.h: MatchesByQuerySampler"]}
{"id": "C87", "title": "Error records", "statement": "MatchError values are equal exactly if both rates are the same numbers (the two zeros are, NaN is not), MatchErrorCounts if their numbers of hypotheses and references agree too; != is the negation of ==. Equal records convert to equal counts, adding equal counts gives equal counts unless a sum is NaN, and addition is commutative. The text of counts shows the rates to six significant digits and the two numbers in decimal.", "quantifier": "every record, including NaN, infinities and signed zeros", "why_tests_cant": "All floats.", "anchors": ["core/MatchError.h: MatchError", "core/MatchErrorCounts.h: MatchErrorCounts"]}
{"id": "C88", "title": "SimpleKwsEval: line order does not matter when equal scores are collapsed (up to rounding of the means)", "statement": "With --collapse_matches and sorted hypotheses (either order), permuting the lines of the hypotheses file, or permuting or repeating the lines of the references file, changes neither how SimpleKwsEval ends nor gAP, gNDCG and the global curve. Computed exactly, mAP, mNDCG and the mean curve do not change either; in double arithmetic the means may change in the last bits, since groups are added in another order.", "quantifier": "every pair of files that differ by such a permutation, every query file, every arithmetic (the first part)", "why_tests_cant": "Relates all pairs of runs; ids, ranking of ties and matches do differ between the runs, and the agreement comes from collapsing them.", "anchors": ["tools/GenericKwsEvalTool.h: Main", "tools/SimpleKwsEval.cc: main", "core/Assessment.h: CollapseMatches"]}
{"id": "C89", "title": "Queries do not affect each other", "statement": "Run a program on the same references and hypotheses once for each query group that has events, with a query file keeping just the queries of that group (for no query file: a query set of one query). Then mAP and mNDCG of the run on all groups are the means of the gAP and gNDCG of these runs, added in the order in which the groups appear in the matches. Computed exactly, the order of the groups does not matter.", "quantifier": "every pair of files, every query file, all settings without bootstrapping, every arithmetic (the first part), both programs", "why_tests_cant": "Relates a run to unboundedly many others, on all inputs.", "anchors": ["tools/GenericKwsEvalTool.h: Main", "matcher/SimpleMatcher.h: Match", "core/Assessment.h: ComputeMeanAP, ComputeMeanNDCG", "tools/Icdar17KwsEval.cc: main", "tools/SimpleKwsEval.cc: main"]}
{"id": "C90", "title": "With one group, the means are the global statistics", "statement": "If all the events kept are of one query group, mAP equals gAP and mNDCG equals gNDCG. This is exact in real arithmetic, and in double arithmetic up to the sign of zero, for NDCG if it is finite.", "quantifier": "every pair of files and query file with one group, at most 2^53 events in double arithmetic, all settings without bootstrapping, both programs", "why_tests_cant": "All inputs and all roundings.", "anchors": ["tools/GenericKwsEvalTool.h: Main", "core/Assessment.h: ComputeMeanAP, ComputeMeanNDCG, ComputeGlobalAP, ComputeGlobalNDCG"]}
{"id": "C91", "title": "A better ranking has no worse statistics", "statement": "Without collapsing, moving hits up past false alarms lowers neither AP (with any settings) nor NDCG, computed exactly; if any hit moves, NDCG and AP without interpolation get higher. So for SimpleKwsEval with decreasing scores and without collapsing, a higher score for a hypothesis that is right lowers none of the four statistics, and one for a hypothesis that is wrong raises none. With collapsing and no interpolation, this is false for AP: a higher score for a hit can lower it. For Icdar17KwsEval it is false, as a hypothesis that is right can take the reference of another one.", "quantifier": "every ranking with errors 0 and 1, every AP setting; every pair of files and query file, every change of one score, all settings without bootstrapping", "why_tests_cant": "Relates runs on all inputs that differ in one score.", "anchors": ["core/Assessment.h: ComputePrecisionAndRecall, ComputeAP, ComputeNDCG, CollapseMatches", "matcher/SimpleMatcher.h: Match", "tools/SimpleKwsEval.cc: main", "tools/Icdar17KwsEval.cc: main"]}
{"id": "C92", "title": "A higher score with collapsing", "statement": "With collapsing of matches with equal scores, computed exactly: with interpolation, as by default, a higher score for a hit does not lower AP; with any settings, a higher score for a false alarm does not raise AP (at most 2^24 matches). So for SimpleKwsEval with decreasing scores, a higher score for a hypothesis that is right lowers neither gAP nor mAP, and one for a hypothesis that is wrong raises neither. For NDCG the first is false: a hit that gets the score of a false alarm above it can lower it.", "quantifier": "every ranking with errors 0 and 1; every pair of files and query file, every change of one score, all settings with collapsing and without bootstrapping", "why_tests_cant": "Relates runs on all inputs that differ in one score, with any ties before and after.", "anchors": ["core/Assessment.h: CollapseMatches, ComputePrecisionAndRecall, ComputeAP, ComputeNDCG", "matcher/SimpleMatcher.h: Match", "tools/SimpleKwsEval.cc: main"]}
{"id": "C93", "title": "One more hypothesis", "statement": "Computed exactly: without collapsing, one more false alarm anywhere in a ranking raises neither AP nor NDCG, and finding a reference that was missed lowers neither. So a line added anywhere to the hypotheses has a known effect in both programs. For Icdar17KwsEval, one that no reference of the same query covers by half raises none of the four statistics, with any sort criterion and without collapsing; with collapsing and decreasing scores it raises neither gAP nor mAP. One that some reference of the same query covers by half, whether or not that reference has been found, lowers none of the four without collapsing; with collapsing and decreasing scores it lowers neither gAP nor mAP, if the precision is interpolated or no reference accepts both it and another hypothesis. The same holds for SimpleKwsEval with hypotheses that are not or are among the references. (Areas of at most 2^24 cells; with collapsing, at most 2^24 lines.)", "quantifier": "every ranking with errors 0 and 1; every pair of files and query file, every line added anywhere, all settings without bootstrapping", "why_tests_cant": "Relates runs on all inputs that differ in one line, also where the new hypothesis takes a reference from another one.", "anchors": ["core/Assessment.h: CollapseMatches, ComputePrecisionAndRecall, ComputeAP, ComputeNDCG", "matcher/SimpleMatcher.h: Match", "scorer/IntersectionOverHypothesisAreaScorer.h", "tools/SimpleKwsEval.cc: main", "tools/Icdar17KwsEval.cc: main"]}
{"id": "C94", "title": "The order of the hypotheses does not matter to SimpleKwsEval", "statement": "With decreasing or increasing scores, with or without collapsing, SimpleKwsEval with the lines of the hypotheses in another order ends in the same way and prints the same gAP and gNDCG and writes the same global curve, in any arithmetic; mAP, mNDCG and the mean curve are the same if computed exactly. Ties are broken by ids that depend on the order of the lines, but only among hypotheses that are all wrong.", "quantifier": "every pair of files, query file and permutation of the lines of the hypotheses, all settings with sorting and without bootstrapping", "why_tests_cant": "Relates runs on all permutations of all inputs; the ids and the order of ties do change.", "anchors": ["mapper/StringToIntMapper.h: operator()", "mapper/StringEventToIntMapper.h: operator()", "core/Event.h: operator<", "matcher/SimpleMatcher.h: Match", "tools/SimpleKwsEval.cc: main"]}
{"id": "C95", "title": "One more reference that nobody finds", "statement": "Computed exactly, a line added anywhere to the references raises none of the four statistics if no hypothesis finds it. If its query is evaluated and there were n different references of evaluated queries, gAP is multiplied by n / (n + 1) and gNDCG by the quotient of the best sums of gains of n and n + 1 references. This holds for Icdar17KwsEval with all settings without bootstrapping if the new reference is new and covers no hypothesis of the same query by half (hypotheses of at most 2^24 cells), and for SimpleKwsEval with collapsing and sorted scores if it is new and not among the hypotheses; with collapsing for at most 2^24 lines.", "quantifier": "every pair of files and query file, every line added anywhere, all settings without bootstrapping", "why_tests_cant": "Relates runs on all inputs that differ in one line; in SimpleKwsEval a new line changes the ids of later strings.", "anchors": ["core/Assessment.h: ComputePrecisionAndRecall, ComputeAP, ComputeNDCG", "matcher/SimpleMatcher.h: Match", "scorer/IntersectionOverHypothesisAreaScorer.h", "tools/SimpleKwsEval.cc: main", "tools/Icdar17KwsEval.cc: main"]}
{"id": "C96", "title": "Bounds by the number of references found", "statement": "Computed exactly, if k of n evaluated references are found, gAP is at most k / n and gNDCG at most the best sum of gains of k references over that of n. In SimpleKwsEval the references found are those among the hypotheses; with interpolation gAP is at least k / n times k / (k + a) for a false alarms; for descending scores gAP is k / n if every reference found has a hypothesis of a higher score than every false alarm, with collapsing only then, and without collapsing only if no reference found is below a false alarm; then gNDCG meets its bound as well. In Icdar17KwsEval they are those that share half of the cells of a hypothesis of the same query. With collapsing for at most 2^24 lines, gNDCG for 2^19.", "quantifier": "every pair of files and query file, all settings without bootstrapping; every ranking of hits, false alarms and misses", "why_tests_cant": "A bound over all inputs by counts that do not depend on the order, with the exact case of equality.", "anchors": ["core/Assessment.h: ComputePrecisionAndRecall, ComputeAP, ComputeNDCG", "core/MatchErrorCounts.h", "matcher/SimpleMatcher.h: Match", "tools/SimpleKwsEval.cc: main", "tools/Icdar17KwsEval.cc: main"]}
{"id": "C97", "title": "One more hypothesis for references already found", "statement": "In both programs, a hypothesis added anywhere in the file changes neither how the run ends nor any statistic or curve, and the matches written only in the sign of zero scores (nothing is said of the ignored ones listed after them), if it is for references that others find first: some reference accepts it, and every reference that does is the only one to accept another hypothesis that comes before it in the ranking. In SimpleKwsEval this is: it is one of the references and another hypothesis with the same query and location has no lower score (no higher one if the order is ascending; comes earlier in the file if it is unsorted). In Icdar17KwsEval the references that accept are those that share half of the cells of a hypothesis of the same query.", "quantifier": "every pair of files and query file, every place of the added line, all settings without bootstrapping, any arithmetic of the statistics", "why_tests_cant": "Over all inputs and places of the added hypothesis; the greedy matching could give the earlier reference away to another hypothesis.", "anchors": ["matcher/SimpleMatcher.h: Match", "tools/SimpleKwsEval.cc: main", "tools/Icdar17KwsEval.cc: main"]}
{"id": "C98", "title": "Names and coordinates do not matter", "statement": "Replacing the queries, locations and groups of all files of SimpleKwsEval by other names, the same one for the same string and different ones for different strings, leaves the whole run as it is: its messages, statistics, curves, the matches written and the intervals of bootstrapping. In Icdar17KwsEval, without bootstrapping, the way the run ends, the statistics and the curves stay the same, and the matches written are the renamed ones up to the sign of zero scores, if queries and documents of the events get new names in the same order, the queries listed in the query file different names, and the boxes of each document are moved by the same distance, as long as the corners remain values of uint32_t. There, names in another order can change gAP.", "quantifier": "every pair of files and query file, every renaming, every distance for every document; SimpleKwsEval with all settings, Icdar17KwsEval with all settings without bootstrapping; any arithmetic of the statistics", "why_tests_cant": "Relates the runs on all inputs and all renamings and translations of them; the order of the names decides between equal scores in Icdar17KwsEval, so not every renaming is harmless there.", "anchors": ["mapper/StringToIntMapper.h", "mapper/StringEventToIntMapper.h", "core/DocumentBoundingBox.h", "core/BoundingBox.h", "matcher/SimpleMatcher.h: Match", "tools/SimpleKwsEval.cc: main", "tools/Icdar17KwsEval.cc: main"]}
{"id": "C99", "title": "Only the events and settings matter", "statement": "Both programs depend on their input files only through the events, queries and groups they list: files with the same events give the same run with all messages, whatever their comments, blanks and spellings of numbers. The names of the input files, whether the hypotheses come from a file or the standard input, and the order in which the options are given change only messages: runs with the same events and the same other settings end in the same way with the same statistics, intervals, curves and matches written.", "quantifier": "every pair of well-formed inputs with the same events, every command line, all settings including bootstrapping, any arithmetic of the statistics", "why_tests_cant": "Relates all pairs of runs on the same events; a test compares a few files.", "anchors": ["tools/GenericKwsEvalTool.h: Main", "reader/PlainTextReader.h", "cmd/Parser.h", "tools/SimpleKwsEval.cc: main", "tools/Icdar17KwsEval.cc: main"]}
{"id": "C100", "title": "Resolution does not matter", "statement": "Multiplying all coordinates of the boxes of each document by a factor of its own, in both files, changes neither how a run of Icdar17KwsEval without bootstrapping ends nor its statistics and curves, and the matches written are the resized ones up to the sign of zero scores, as long as corners and areas remain values of uint32_t and each factor is a power of two or the hypotheses of the document have at most 2^24 cells after it. Without this bound rounding can make the difference.", "quantifier": "every pair of files and query file, every factor for every document, all settings without bootstrapping, any arithmetic of the statistics", "why_tests_cant": "Relates the runs on all inputs and resolutions; the acceptance test divides rounded areas, which is only harmless within the bound.", "anchors": ["core/BoundingBox.h: Area, IntersectionArea", "core/DocumentBoundingBox.h", "core/DocumentBoundingBoxEventSet.h: FindOverlapping", "scorer/IntersectionOverHypothesisAreaScorer.h", "matcher/SimpleMatcher.h: Match", "tools/Icdar17KwsEval.cc: main"]}
{"id": "C101", "title": "Settings compared", "statement": "On the same events and with the same ranking, interpolating the precision never lowers gAP and mAP, nor does the trapezoid rule besides the interpolation, nor does switching off the collapsing of equal scores besides the interpolation and without trapezoids; gNDCG and mNDCG depend on the collapsing only. The interpolated average precision without trapezoids of the collapsed matches is exactly the least one over all orders of matches of equal score, and their NDCG is at most the one with the hits first. With trapezoids collapsing may raise or lower the average precision, and so may trapezoids without interpolation.", "quantifier": "every pair of files and query file of at most 2^24 events when collapsing, every pair of command lines that differ in such a setting, both tools, exact arithmetic; every list of 0/1 matches in descending order", "why_tests_cant": "Compares the results of different settings over all inputs, and the collapsed list with all orders of its ties at once.", "anchors": ["core/Assessment.h: CollapseMatches, ComputePrecisionAndRecall, ComputeAP, ComputeNDCG", "tools/GenericKwsEvalTool.h: Main"]}
{"id": "C102", "title": "The references as hypotheses", "statement": "If the hypotheses of the queries that are evaluated are the references of these queries, in any order, with any scores and repetitions, gAP, mAP, gNDCG and mNDCG are 1: in SimpleKwsEval always, in Icdar17KwsEval if the references have cells and none lies within another one of its query. More generally this holds in Icdar17KwsEval if every hypothesis has half of its cells in a reference and every reference has more cells of some such hypothesis than any other reference. It fails for a reference within another one: the hypothesis of the inner reference can take the outer one.", "quantifier": "every pair of files and query file of at most 2^24 events when collapsing, all settings without bootstrapping, exact arithmetic", "why_tests_cant": "All inputs, orders and scores; the failure needs nested references with the inner one scored higher.", "anchors": ["core/DocumentBoundingBoxEventSet.h: FindOverlapping", "scorer/IntersectionOverHypothesisAreaScorer.h", "matcher/SimpleMatcher.h: Match", "core/Assessment.h: ComputeAP, ComputeNDCG", "tools/GenericKwsEvalTool.h: Main"]}
{"id": "C103", "title": "The files of queries compared", "statement": "A run depends on the file of queries only through the events it keeps and through which queries of these events are in one group: the names of the groups, the form of the file (set or groups), repeated lines and listed queries without events do not matter to any result. In Icdar17KwsEval a non-empty set of queries gives the results of files that hold just the lines of these queries; in SimpleKwsEval a set with all queries gives the results without a set. Without intervals, the groups of the listed queries only matter to mAP, mNDCG and the mean curve.", "quantifier": "every pair of runs of each program with the same settings and writable files, all inputs, arithmetics and sort algorithms (for SimpleKwsEval of at most 2^31 strings)", "why_tests_cant": "All pairs of query files with the same effect, for all events and settings.", "anchors": ["tools/GenericKwsEvalTool.h: filter_events, Main", "core/Assessment.h: GroupMatchesByQueryGroup", "mapper/StringToIntMapper.h"]}
{"id": "C104", "title": "Confidence intervals compared", "statement": "Two runs of a program on the same events (up to 2^25) whose settings differ only in the level print the same statistics, write the same files and end alike, and each interval at the smaller level encloses that at the larger one, in double arithmetic with accurate exp2/log2. In exact arithmetic every statistic v is from 0 to 1, its bounds are from 2v-1 to 2v, and they are in order for levels up to 1 (for gNDCG and mNDCG with collapsed matches up to 2^19 events, or as many per sample). If every reference is found and every hypothesis finds one, all statistics and bounds are 1. An interval need not contain its statistic, nor lie between 0 and 1, and its bounds are in the wrong order for some accepted levels above 1.", "quantifier": "every pair of command lines that differ in the level, all inputs, seeds, random generators and sorting algorithms; usable options (level above 2^-53 and below 2, 1 to 2^53 samples)", "why_tests_cant": "All random samples and all pairs of levels; the order of the bounds is proved for the rounded percentile positions, not for sampled levels.", "anchors": ["core/Bootstrapping.h: ComputeBootstrapCI", "tools/GenericKwsEvalTool.h: ComputeMeanStatistic", "tools/GenericKwsEvalTool.h: ComputeGlobalStatistic"]}
{"id": "C105", "title": "Metrics in single precision", "statement": "Assessment.h with Real = float, as the project's tests use it: for up to 2^24 matches with errors 0 or 1, all precisions and recalls are finite floats from 0 to 1, recall never decreases, interpolated precision never increases, every recall is the float nearest to the exact one and every precision is at most 2^-24 away from the exact one. Both forms of ComputeAP end without failure and are at most n(n+12)2^-24 away from the exact AP of n matches. With the default options AP can be above 1 (a hit followed by two false positives) and below 1 for a perfect ranking (15 hits).", "quantifier": "all lists of up to 2^24 matches, all scores, all settings of collapse, interpolation and trapezoids", "why_tests_cant": "The tests compare six points with a tolerance of four units in the last place; the bounds hold for every list and every rounding, including the intermediate results in double.", "anchors": ["core/Assessment.h: ComputePrecisionAndRecall", "core/Assessment.h: ComputeAP", "core/AssessmentTest.cc"]}
{"id": "C106", "title": "A higher score for one hypothesis", "statement": "Two runs of Icdar17KwsEval that differ in the score of one hypothesis, higher in the second, that no reference accepts (for boxes of at most 2^24 cells: none of the same query covers half of it). Without collapsing, the second run prints no larger gAP, mAP, gNDCG and mNDCG with decreasing scores, and no smaller ones with increasing scores. With collapsing and decreasing scores, gAP and mAP are no larger. With increasing scores and without collapsing, the same holds for SimpleKwsEval and a hypothesis that is not a reference.", "quantifier": "all files of references, hypotheses and queries, all settings without bootstrapping, every hypothesis and every pair of scores, every sorting algorithm; exact arithmetic for the statistics, single precision for the scores and overlaps; with collapsing up to 2^24 events", "why_tests_cant": "All inputs and score pairs, ties between scores and groups of queries included.", "anchors": ["matcher/SimpleMatcher.h: Match", "core/Assessment.h: ComputeAP", "core/Assessment.h: ComputeNDCG", "tools/Icdar17KwsEval.cc: main", "tools/SimpleKwsEval.cc: main"]}
{"id": "C107", "title": "A higher score for a hypothesis with a reference of its own", "statement": "Two runs of Icdar17KwsEval that differ in the score of one hypothesis, higher in the second, that some reference accepts, where the references that accept it accept no other hypothesis (for boxes of at most 2^24 cells: they cover half of it and of no other of the same query). Without collapsing, the second run prints no smaller gAP, mAP, gNDCG and mNDCG with decreasing scores, and no larger ones with increasing scores. With collapsing, interpolation and decreasing scores, gAP and mAP are no smaller. With increasing scores and without collapsing, the same holds for SimpleKwsEval and a hypothesis that is a reference and is given once.", "quantifier": "all files of references, hypotheses and queries, all settings without bootstrapping, every such hypothesis and every pair of scores, every sorting algorithm; exact arithmetic for the statistics, single precision for the scores and overlaps", "why_tests_cant": "All inputs and score pairs; where two hypotheses compete for a reference the claim is false (C91), so a test has to tell the cases apart.", "anchors": ["matcher/SimpleMatcher.h: Match", "core/Assessment.h: ComputeAP", "core/Assessment.h: ComputeNDCG", "tools/Icdar17KwsEval.cc: main", "tools/SimpleKwsEval.cc: main"]}
{"id": "C108", "title": "Curve files in double arithmetic", "statement": "In the curve files that the two tools write with double arithmetic, the x values are the doubles nearest to evenly spaced numbers and every y value is a finite double from 0 to 1 (of the mean curve, when there is a group): no rounding of the interpolation or of the mean leaves the interval. With interpolated precision and without trapezoids the y values do not grow. With trapezoids, the default, they can: a run is given in which the exact values are equal and a later rounded one is larger (violated expectation of a monotone curve).", "quantifier": "all files with at most 2^53 references and hypotheses, all settings without bootstrapping with at most 2^53 sample points, every sorting algorithm, any implementation of log2", "why_tests_cant": "All rankings and numbers of points; the upper bound holds only by half a unit in the last place of the weights, so a test would have to hit the rounding cases.", "anchors": ["core/Assessment.h: SampleCurveAtGivenPoints", "tools/GenericKwsEvalTool.h: WriteGlobalRPCurve", "tools/GenericKwsEvalTool.h: WriteMeanRPCurve", "tools/Icdar17KwsEval.cc: main", "tools/SimpleKwsEval.cc: main"]}
{"id": "C109", "title": "Error of the curve files in double arithmetic", "statement": "The points in the curve files that the two tools write with double arithmetic stand for the points of the exact recall-precision curves of the evaluation: the x values are the doubles nearest to the exact recalls, and with at most n references and hypotheses every precision is at most 32 n 2^-53 (global curve) or 34 n 2^-53 (mean curve, when there is a group) away from the exact one. In particular rounding never makes the program pick another recall level for a sample point, although the program compares rounded recalls with rounded sample points.", "quantifier": "all files, all settings without bootstrapping, all n up to 2^53 with n times the number of sample points at most 2^49, every sorting algorithm, any implementation of log2", "why_tests_cant": "The sampled curve is a step function of the comparisons, so a single wrong comparison would cause an error of order 1; no finite set of rankings and sample counts covers the fractions that can be close to each other.", "anchors": ["core/Assessment.h: SampleCurveAtGivenPoints", "tools/GenericKwsEvalTool.h: WriteGlobalRPCurve", "tools/GenericKwsEvalTool.h: WriteMeanRPCurve", "tools/Icdar17KwsEval.cc: main", "tools/SimpleKwsEval.cc: main"]}
{"id": "C110", "title": "With one group, the two curve files are equal", "statement": "If all the events kept are of one query group, the global and the mean recall-precision curve that a run writes hold the same points. This is exact in real arithmetic, and in double arithmetic up to the sign of a zero precision, with equal x values and finite y values.", "quantifier": "every pair of files and query file with one group, in double arithmetic at most 2^53 events and sample points, all settings without bootstrapping, both programs, every sorting algorithm", "why_tests_cant": "All rankings, settings and roundings.", "anchors": ["tools/GenericKwsEvalTool.h: WriteGlobalRPCurve", "tools/GenericKwsEvalTool.h: WriteMeanRPCurve", "tools/GenericKwsEvalTool.h: Main"]}
{"id": "C111", "title": "The mean curve is the mean of the curves of single groups", "statement": "The mean recall-precision curve that a run writes is, point by point, the mean of the global curves that runs on the queries of one group at a time write, one run for each group that has events: the events of other groups change nothing. The recalls of all these files are the same.", "quantifier": "every pair of files, every query file, every family of query files that select one group each, all settings without bootstrapping, any arithmetic, both programs, every sorting algorithm", "why_tests_cant": "All inputs and all arithmetics; it relates one run to as many others as there are groups.", "anchors": ["tools/GenericKwsEvalTool.h: WriteMeanRPCurve", "tools/GenericKwsEvalTool.h: WriteGlobalRPCurve", "tools/GenericKwsEvalTool.h: Main", "core/Assessment.h: GroupMatchesByQueryGroup"]}
{"id": "C112", "title": "A better ranking has no lower curve", "statement": "Without collapsing and in exact arithmetic, moving hits up past false alarms lowers no sample of the recall-precision curve, with or without interpolation and trapezoids. In SimpleKwsEval, a higher score for a hypothesis that is right lowers no point of the global or the mean curve file, and a higher score for one that is wrong raises none. With collapsing and without interpolation this fails; for Icdar17KwsEval it fails without collapsing as well, because a hypothesis may take the reference of another.", "quantifier": "every ranking with 0/1 errors, every non-decreasing list of recalls, both settings of interpolation and trapezoids; for SimpleKwsEval every pair of hypothesis files that differ in one score, every query file, all settings with descending order, without collapsing and bootstrapping, with two different curve file names, every sorting algorithm", "why_tests_cant": "It relates two runs, for all inputs and all recalls; the curves have no closed form to compare with.", "anchors": ["core/Assessment.h: SampleCurveAtGivenPoints", "core/Assessment.h: ComputePrecisionAndRecall", "tools/GenericKwsEvalTool.h: WriteGlobalRPCurve", "tools/GenericKwsEvalTool.h: WriteMeanRPCurve"]}
