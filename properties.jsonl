{"id": "C01", "title": "1-D Array behaves like a sequence under every call history", "statement": "For a one-dimensional Array, after any sequence of emplace_back, emplace, insert, erase, pop_back, resize, resizeDefault, reserve and clear calls whose documented index preconditions hold, size() and every a[i] are exactly what the same calls would produce on a plain sequence (vector), no call aborts and no call touches memory outside the allocation.", "quantifier": "every element type (trivial or not), every finite history of calls, every argument value", "why_tests_cant": "Unit tests execute a finite set of call sequences; the claim is about every sequence.", "anchors": ["src/Array.hpp: Array::emplace_back, emplace, insert, erase, pop_back, resize, reserve, clear", "src/bufferManipulation.hpp: emplaceBack, emplace, insert, erase, popBack, resize", "src/arrayManipulation.hpp: shiftUp, shiftDown, emplace, insert, erase"]}
{"id": "C02", "title": "Object lifetimes are balanced", "statement": "During any history of 1-D Array calls no operation reads, moves from or destroys a slot that holds no object, and none constructs over a slot holding a live value; after the array is destroyed every object that was ever constructed has been destroyed exactly once.", "quantifier": "every element type, every history, including histories that reallocate", "why_tests_cant": "Leaks and double destruction depend on the relation between size, capacity, index and shift distance; tests sample a few.", "anchors": ["src/arrayManipulation.hpp: resize, shiftUp, shiftDown, erase, emplace, destroy", "src/MallocBuffer.hpp: reallocate", "src/bufferManipulation.hpp: free"]}
{"id": "C03", "title": "Growth policy", "statement": "reserve(n) makes capacity() at least n and never shrinks it; appending reallocates only when size()==capacity(), and then capacity becomes 2*(size()+1); hence n appends to an empty array cause at most log2(n)+1 reallocations and move fewer than 2n elements in total.", "quantifier": "every number of appends, every initial capacity", "why_tests_cant": "Asymptotic claim over all lengths.", "anchors": ["src/bufferManipulation.hpp: reserve, dynamicReserve, emplaceBack"]}
{"id": "C04", "title": "Passing a reference to an own element", "statement": "a.emplace_back(a[i]) appends a copy of a[i] whenever size()<capacity(); when the call has to reallocate, the argument refers to freed storage by the time it is read.", "quantifier": "every array content, every i", "why_tests_cant": "The failing case depends on size relative to capacity, and reads of freed storage usually appear to work in a test.", "anchors": ["src/bufferManipulation.hpp: emplaceBack, dynamicReserve", "src/MallocBuffer.hpp: reallocate"]}
{"id": "C05", "title": "StackBuffer never exceeds its length", "statement": "With a StackBuffer of length L any history of container calls either stays within L elements and behaves as with a heap buffer, or aborts with an error at the first call needing more than L elements; it never writes past the buffer.", "quantifier": "every L, every history", "why_tests_cant": "Unit tests execute a finite set of call sequences; the claim is about every sequence.", "anchors": ["src/StackBuffer.hpp: reallocate"]}
{"id": "C06", "title": "operator() addresses distinct in-range slots", "statement": "For every number of dimensions, every permutation and all non-negative extents, a(i0,...,iN) maps the valid index tuples one-to-one onto the slots 0..size()-1 of the data.", "quantifier": "every dimension count, permutation, extents and index tuple", "why_tests_cant": "Tests cover a handful of permutations and small extents.", "anchors": ["src/indexing.hpp: calculateStrides, getLinearIndex, multiplyAll", "src/ArrayView.hpp: operator()"]}
{"id": "C07", "title": "The last index of the permutation has stride one", "statement": "For every permutation the dimension listed last in the permutation has stride 1, dimension p_k has as stride the product of the extents of the dimensions listed after it, and skipping the multiplication by that unit stride (USD) never changes the computed address.", "quantifier": "every permutation and extents", "why_tests_cant": "Universal over permutations.", "anchors": ["src/indexing.hpp: calculateStrides, getLinearIndex, ConditionalMultiply", "src/typeManipulation.hpp: getStrideOneDimension"]}
{"id": "C08", "title": "Chained operator[] equals operator()", "statement": "a[i0][i1]...[ik] refers to the same slot as a(i0,...,ik), and the slice a[i0]...[ij] has the extents and strides of the remaining dimensions.", "quantifier": "every rank, permutation, extents and index tuple", "why_tests_cant": "Universal over ranks and permutations.", "anchors": ["src/ArraySlice.hpp: operator[], operator()", "src/ArrayView.hpp: operator[]"]}
{"id": "C09", "title": "dataIfContiguous is sound", "statement": "If isContiguous() reports true for a slice obtained from an Array by operator[], then the elements of the slice occupy exactly the size() consecutive slots starting at dataIfContiguous(), each exactly once.", "quantifier": "every rank, permutation, extents and slicing prefix", "why_tests_cant": "Universal over shapes.", "anchors": ["src/ArraySlice.hpp: isContiguous, dataIfContiguous"]}
{"id": "C10", "title": "Bounds-checked indexing is exact", "statement": "With bounds checking on, operator() and operator[] abort for every index tuple with some component negative or not less than its extent, and never abort or address outside the allocation otherwise.", "quantifier": "every shape and every integer index tuple", "why_tests_cant": "Negative and boundary indices in every dimension combination.", "anchors": ["src/indexing.hpp: invalidIndices, checkIndices", "src/ArrayView.hpp: linearIndex", "src/ArraySlice.hpp: linearIndex"]}
{"id": "C11", "title": "forValuesInSlice visits every element once in lexicographic order", "statement": "forValuesInSlice and forValuesInSliceWithIndices apply the function to every element of the slice exactly once, in lexicographic index order, passing the matching indices; sumOverFirstDimension adds to each destination component the sum of the source over the first index.", "quantifier": "every rank, permutation and extents", "why_tests_cant": "Universal over ranks and extents.", "anchors": ["src/sliceHelpers.hpp: forValuesInSlice, forValuesInSliceWithIndices, sumOverFirstDimension"]}
{"id": "C12", "title": "Resizing one dimension keeps values at their indices", "statement": "Array::resizeDefault(n)/resize(n) on the single-parameter resize dimension keeps the value at every index tuple valid before and after, gives every newly valid tuple the default value, and leaves extents of other dimensions and the permutation layout unchanged.", "quantifier": "every rank, permutation, choice of the resized dimension, old and new extents, element type", "why_tests_cant": "The in-place shifting pattern depends on stride, old and new extent jointly; tests sample few shapes.", "anchors": ["src/Array.hpp: resizeDefaultDimension", "src/arrayManipulation.hpp: shiftUp, shiftDown"]}
{"id": "C13", "title": "Full resize gives consistent extents, strides and size", "statement": "After any history of resize(dims), resizeDimension<...>, resize(n), reserve and clear the reported extents are the requested ones, the strides are those of the layout and size() equals the product of the extents, with exactly size() live elements.", "quantifier": "every history", "why_tests_cant": "Unit tests execute a finite set of call sequences; the claim is about every sequence.", "anchors": ["src/Array.hpp: resize, resizeDimension, clear, reserve", "src/indexing.hpp: calculateStrides"]}
{"id": "C14", "title": "find is lower bound, contains is membership", "statement": "On every sorted range find returns the number of elements less than the value (so the first position where it can be inserted), reading only in-range elements, and contains returns true iff the value is in the range.", "quantifier": "every sorted range of every length, every value, every strict total order", "why_tests_cant": "All lengths and positions.", "anchors": ["src/sortedArrayManipulation.hpp: find, contains"]}
{"id": "C15", "title": "isSorted and isSortedUnique decide what they say", "statement": "isSorted(first,last) is true iff no later element compares less than an earlier one; isSortedUnique is true iff each element compares strictly less than every later one.", "quantifier": "every range, every strict order (transitive, irreflexive, total)", "why_tests_cant": "Only adjacent pairs are compared; the claim is about all pairs.", "anchors": ["src/sortedArrayManipulation.hpp: isSorted, isSortedUnique"]}
{"id": "C16", "title": "removeDuplicates keeps each distinct value once", "statement": "On every sorted range removeDuplicates returns the number k of distinct values and leaves them, strictly increasing, in the first k positions; makeSortedUnique does so on any range.", "quantifier": "every range", "why_tests_cant": "All duplication patterns.", "anchors": ["src/sortedArrayManipulation.hpp: removeDuplicates, makeSortedUnique"]}
{"id": "C17", "title": "Single sorted insert and remove are set insert and remove", "statement": "insert(value) into a sorted-unique range yields the sorted-unique range of the set with value added and returns true iff it was absent; remove(value) yields the set without it and returns true iff it was present; no element lifetime is violated.", "quantifier": "every sorted-unique range, value, element type", "why_tests_cant": "All positions and lengths.", "anchors": ["src/sortedArrayManipulation.hpp: insert, remove"]}
{"id": "C18", "title": "Batch sorted insert and remove are set union and difference", "statement": "insert(first,last)/remove(first,last) with a sorted-unique input range yields exactly the sorted-unique union/difference, returns the number of values actually added/removed, and never violates element lifetimes.", "quantifier": "every pair of sorted-unique ranges", "why_tests_cant": "The interleaving of the two ranges has unboundedly many patterns.", "anchors": ["src/sortedArrayManipulation.hpp: insert (range), remove (range)"]}
{"id": "C19", "title": "SortedArray behaves like a mathematical set under every history", "statement": "After any history of insert, insert(range), remove, remove(range), clear and reserve, contains(v) holds iff v is in the set defined by the history, the elements are strictly increasing, size() is the cardinality and the returned counts are the cardinality changes.", "quantifier": "every history", "why_tests_cant": "Unit tests execute a finite set of call sequences; the claim is about every sequence.", "anchors": ["src/SortedArray.hpp: insert, remove, clear, reserve", "src/SortedArrayView.hpp: contains, count, size"]}
{"id": "C20", "title": "dualSort sorts keys and keeps pairs together", "statement": "Whenever dualSort returns, the keys are sorted and the sequence of (key,data) pairs is a permutation of the original pairs; it never reads or writes outside the two ranges.", "quantifier": "every input length and content, every strict weak order", "why_tests_cant": "The unguarded inner loops rely on sentinel values; tests sample inputs.", "anchors": ["src/sortedArrayManipulation.hpp: dualSort", "src/sortedArrayManipulationHelpers.hpp: introsortLoop, insertionSort, unguardedPartition, DualIterator"]}
{"id": "C21", "title": "The introsort range stack is bounded only by luck", "statement": "The fixed 32-entry range stack used by dualSort and device makeSorted never overflows for inputs of up to 94 elements, but there is an input of fewer than 200 elements for which it does (the only guard is a debug assertion).", "quantifier": "every input of at most 94 elements; existence of a longer failing input", "why_tests_cant": "Random tests practically never hit the adversarial ordering.", "anchors": ["src/sortedArrayManipulationHelpers.hpp: introsortLoop"]}
{"id": "C22", "title": "ArrayOfArrays behaves like vector<vector<T>> under every history", "statement": "For trivially copyable T, after any history of resize, resizeFromCapacities, reserve, reserveValues, compress, appendArray, insertArray, eraseArray, emplaceBack, appendToArray, emplace, insertIntoArray, eraseFromArray, resizeArray, clearArray and setCapacityOfArray with valid indices, size(), sizeOfArray(i) and every a(i,j) are what the same calls would give on vector<vector<T>>.", "quantifier": "every history, every argument value", "why_tests_cant": "Unit tests execute a finite set of call sequences; the claim is about every sequence.", "anchors": ["src/ArrayOfArrays.hpp: all mutating methods", "src/ArrayOfArraysView.hpp: setCapacityOfArray, compress, resizeImpl, resizeFromCapacities"]}
{"id": "C23", "title": "ArrayOfArrays structural invariant", "statement": "At every point of every history offsets are non-decreasing, sizeOfArray(i) <= capacityOfArray(i), inner arrays occupy disjoint slots, and valueCapacity covers them all; modifying one inner array never changes the contents of another.", "quantifier": "every history, every pair of inner arrays", "why_tests_cant": "Unit tests execute a finite set of call sequences; the claim is about every sequence.", "anchors": ["src/ArrayOfArraysView.hpp: m_offsets, m_sizes, setCapacityOfArray"]}
{"id": "C24", "title": "Unused capacity and non-trivial element types", "statement": "With a non-trivially-copyable T, in every history whose calls have valid indices the only possible lifetime violation is that a reallocation of the value storage moves from the never-constructed slots between inner arrays; this violation does occur for some valid history.", "quantifier": "every history, every non-trivial T", "why_tests_cant": "std::string often survives being moved from zeroed memory, so tests pass.", "anchors": ["src/ArrayOfArraysView.hpp: setCapacityOfArray, reserveValues", "src/MallocBuffer.hpp: reallocate"]}
{"id": "C25", "title": "compress preserves contents and closes all gaps", "statement": "compress() leaves every sizeOfArray(i) and a(i,j) unchanged, makes capacityOfArray(i)==sizeOfArray(i) for every i, and makes the inner arrays adjacent.", "quantifier": "every state reachable by any history", "why_tests_cant": "All gap patterns.", "anchors": ["src/ArrayOfArraysView.hpp: compress"]}
{"id": "C26", "title": "resizeFromCapacities builds exactly the requested layout", "statement": "resizeFromCapacities(n, caps) yields n empty inner arrays with capacityOfArray(i) == caps[i], whatever the previous contents, with all previous elements destroyed.", "quantifier": "every previous state, every n and capacities", "why_tests_cant": "All previous states.", "anchors": ["src/ArrayOfArraysView.hpp: resizeFromCapacities"]}
{"id": "C27", "title": "emplaceBackAtomic is linearizable under every schedule", "statement": "If threads concurrently call emplaceBackAtomic on inner arrays whose remaining capacity covers all calls, then under every interleaving of their atomic steps all values end up in the array exactly once, no slot is written twice, the final size is the initial size plus the number of calls and previously stored elements are unchanged.", "quantifier": "every number of threads and calls, every interleaving", "why_tests_cant": "Schedules cannot be enumerated by tests.", "anchors": ["src/ArrayOfArraysView.hpp: emplaceBackAtomic"]}
{"id": "C28", "title": "ArrayOfSets behaves like vector<set> under every history", "statement": "After any history of insertIntoSet, removeFromSet (single and batch), insertSet, appendSet, eraseSet, clearSet, setCapacityOfSet, reserve, compress and resize, every set is strictly increasing, contains(i,v) is as in the corresponding vector of sets, and returned values are the cardinality changes.", "quantifier": "every history", "why_tests_cant": "Unit tests execute a finite set of call sequences; the claim is about every sequence.", "anchors": ["src/ArrayOfSets.hpp", "src/ArrayOfSetsView.hpp: insertIntoSetImpl, removeFromSetImpl"]}
{"id": "C29", "title": "Assimilating an ArrayOfArrays into an ArrayOfSets", "statement": "assimilate(ArrayOfArrays&&, desc) gives sets which contain exactly the values of the corresponding inner arrays, strictly increasing, provided desc truthfully describes the input, for each of the four descriptions.", "quantifier": "every input contents and every description", "why_tests_cant": "All contents.", "anchors": ["src/ArrayOfSets.hpp: assimilate", "src/sortedArrayManipulation.hpp: Description"]}
{"id": "C30", "title": "SparsityPattern keeps valid columns in sorted rows", "statement": "After any history of insertNonZero(s)/removeNonZero(s)/setRowCapacity/reserveNonZeros/compress/appendRow with columns below numColumns(), each row's columns are strictly increasing and below numColumns(), numNonZeros(i) counts them and empty(i,j) is exact; clamping row growth at numColumns() never leaves too little room.", "quantifier": "every history, every number of columns", "why_tests_cant": "Pigeonhole argument over all histories.", "anchors": ["src/SparsityPattern.hpp: insertNonZero, setRowCapacity, dynamicallyGrowRow", "src/SparsityPatternView.hpp"]}
{"id": "C31", "title": "An out-of-range column overflows a full row, bounds checks or not", "statement": "SparsityPattern::insertNonZero never validates the column, not even with bounds checks. Inserting a column outside [0, numColumns()) into a row which holds numColumns() columns and has no spare capacity never aborts: growth is clamped at numColumns(), so the call writes beyond the row's capacity, into the next row's slots or outside the buffer.", "quantifier": "every valid history leading to such a row, every out-of-range column; existence of an overwritten neighbour and of an access outside the buffer", "why_tests_cant": "Requires a precise combination of full row and bad column.", "anchors": ["src/SparsityPattern.hpp: setRowCapacity, insertNonZero", "src/CRSMatrix.hpp: setRowCapacity"]}
{"id": "C32", "title": "CRSMatrix entries stay attached to their columns under every history", "statement": "After any history of insertNonZero(s), removeNonZero(s), addToRow, setValues, zero, compress, setRowCapacity, reserveNonZeros, each row is a finite map from column to entry equal to the one defined by the history; getColumns and getEntries stay aligned.", "quantifier": "every history", "why_tests_cant": "Unit tests execute a finite set of call sequences; the claim is about every sequence.", "anchors": ["src/CRSMatrix.hpp", "src/CRSMatrixView.hpp: CallBacks, insertNonZero, removeNonZero, addToRow"]}
{"id": "C33", "title": "All addToRow variants agree", "statement": "For columns present in the row, addToRowBinarySearch, addToRowLinearSearch (sorted columns), addToRowBinarySearchUnsorted and addToRow (whichever strategy the size heuristic picks) add vals[k] to the entry of cols[k] and change nothing else.", "quantifier": "every row, every column list, every value list", "why_tests_cant": "Heuristic depends on sizes; all sizes.", "anchors": ["src/CRSMatrixView.hpp: addToRow, addToRowBinarySearch, addToRowLinearSearch, addToRowBinarySearchUnsorted"]}
{"id": "C34", "title": "Atomic addToRow is schedule independent", "statement": "When several threads add to rows of a matrix with an atomic policy, every interleaving of the individual atomic additions ends with each entry equal to its initial value plus the sum of all contributions to it (for associative-commutative addition).", "quantifier": "every number of threads, every interleaving", "why_tests_cant": "Schedules cannot be enumerated.", "anchors": ["src/CRSMatrixView.hpp: addToRow*"]}
{"id": "C35", "title": "Row-parallel modification through views is race free", "statement": "Concurrent insertions/removals through views by threads working on different rows/inner arrays within capacity, under any interleaving of their memory accesses, end in the state of running the threads one after another.", "quantifier": "every partition of rows among threads, every interleaving", "why_tests_cant": "Schedules cannot be enumerated.", "anchors": ["src/ArrayOfArraysView.hpp", "src/ArrayOfSetsView.hpp", "src/SparsityPatternView.hpp", "src/CRSMatrixView.hpp"]}
{"id": "C36", "title": "Assimilating a SparsityPattern into a CRSMatrix", "statement": "CRSMatrix::assimilate(SparsityPattern&&) gives a matrix with the same rows, columns, row capacities and default-valued entries for every column.", "quantifier": "every pattern", "why_tests_cant": "All patterns.", "anchors": ["src/CRSMatrix.hpp: assimilate"]}
{"id": "C37", "title": "Copies are deep and equal", "statement": "Copy construction and copy assignment of Array, SortedArray, and (into an empty destination) ArrayOfArrays-like containers give an object with equal contents in separate storage; later changes to one never affect the other, and the destination's old elements are destroyed.", "quantifier": "every source and destination state", "why_tests_cant": "All pairs of states.", "anchors": ["src/Array.hpp: operator=", "src/bufferManipulation.hpp: copyInto", "src/ArrayOfArraysView.hpp: setEqualTo"]}
{"id": "C38", "title": "Copy assignment into a non-empty ArrayOfArrays can misbehave", "statement": "setEqualTo computes the number of live values in the destination from the already overwritten offsets with the old array count; there are valid source/destination pairs for which copy assignment aborts or reads beyond the copied offsets, even though both objects are valid.", "quantifier": "existence of a pair; and the exact condition under which the copy is correct", "why_tests_cant": "Requires particular relation between old and new sizes and capacities.", "anchors": ["src/ArrayOfArraysView.hpp: setEqualTo"]}
{"id": "C39", "title": "Move leaves a valid empty source and transfers contents", "statement": "Move construction transfers contents without touching elements and leaves the source with size 0; move assignment of Array and SortedArray does not release the destination's previous elements (they are leaked) but otherwise transfers contents.", "quantifier": "every source and destination state", "why_tests_cant": "Leaks are invisible to functional tests.", "anchors": ["src/Array.hpp: operator=(Array&&)", "src/SortedArray.hpp: operator=(SortedArray&&)", "src/MallocBuffer.hpp: operator=(MallocBuffer&&)"]}
{"id": "C40", "title": "ChaiBuffer copies never expose stale data", "statement": "Over every history of constructions, shallow and const copies, moves between memory spaces, touches, reallocations, frees, reads and writes that follow the protocol (a buffer is used in the space it and its array were last moved to; writes only after a touching move or allocation there; with more than two spaces an array moves on only from a space where it was touched), no operation uses a freed block or record, and the values read are those of plain arrays without spaces. With two spaces no condition on touching is needed for moves. With three spaces a non-touching move followed by a move to the third space does expose stale or uninitialised memory.", "quantifier": "every number of spaces, every number of buffers, every history", "why_tests_cant": "Unit tests execute a finite set of call sequences; the claim is about every sequence.", "anchors": ["src/ChaiBuffer.hpp: move, registerTouch, reallocate, free, constructors, assignments"]}
{"id": "C41", "title": "integerConversion is value preserving or aborts, with two exceptions", "statement": "integerConversion<OUT>(x) either returns the mathematically equal value or aborts, for every pair of integer types and every x, except that a negative value of a signed type converted to a strictly wider unsigned type is returned wrapped modulo 2^width without an error, and an unsigned char above 1 converted to bool is returned as 1.", "quantifier": "all pairs of integer types of any width and signedness and bool, all values", "why_tests_cant": "the value range is far too large for enumeration and the exceptions are at type pairs tests do not try", "anchors": ["src/limits.hpp: integerConversion, canEasilyConvert"]}
{"id": "C42", "title": "View reinterpretation preserves the number of bytes", "statement": "Converting a view of T to a view of U (convertSize) yields extents/strides that cover exactly the same bytes, or aborts when the sizes do not divide.", "quantifier": "every size pair and extents", "why_tests_cant": "Universal over sizes.", "anchors": ["src/typeManipulation.hpp: convertSize", "src/ArrayView.hpp: converting constructor", "src/MallocBuffer.hpp: converting constructor"]}
{"id": "C43", "title": "memcpy copies all elements when shapes agree", "statement": "memcpy(dst, src) between contiguous slices makes every dst(i...) equal src(i...) when the shapes agree, and aborts if total sizes or strides differ; but shapes that differ only by moving unit extents can be accepted.", "quantifier": "every shape", "why_tests_cant": "Universal over shapes.", "anchors": ["src/memcpy.hpp: memcpy"]}
{"id": "C44", "title": "Printing and parsing an array round-trips", "statement": "operator<< prints the values in nested braces whatever the permutation, and parsing that text (stringToArray) into any array of the same rank gives the same extents and values, for arrays with positive extents whose values print as tokens that read back (all integers of a type, strings without special characters) and for empty 1-D arrays.", "quantifier": "every rank, extents, permutations and printable values", "why_tests_cant": "Universal over ranks, extents and values.", "anchors": ["src/input.hpp: stringToArray", "src/output.hpp: operator<<"]}
{"id": "C45", "title": "stringToArray accepts exactly rectangular nestings of the right depth", "statement": "stringToArray accepts every rectangular nest of readable tokens of depth NDIM (spaces anywhere but inside tokens) and \"{}\", with the extents and values written; whatever it accepts is such a text, provided extraction takes whole words or no comma precedes a closing brace (otherwise \"{1-5,}\" reads as 1,-5); the only undefined behaviour is indexing past its NDIM bookkeeping entries, only for text with more than NDIM braces open somewhere, which is never accepted.", "quantifier": "every input string, rank, permutation, earlier state of the array", "why_tests_cant": "Input strings are unbounded.", "anchors": ["src/input.hpp: stringToArray, internal::StringToArrayHelper"]}
{"id": "C46", "title": "Matrix inverse is a two-sided inverse", "statement": "For every 2x2 or 3x3 matrix with non-zero determinant over a field, invert returns the determinant and a matrix whose product with the input on either side is the identity; the in-place version gives the same; symInvert agrees with invert on the corresponding dense matrix.", "quantifier": "every matrix over every field (exact arithmetic)", "why_tests_cant": "Universal over matrices.", "anchors": ["src/fixedSizeSquareMatrixOpsImpl.hpp: invert, symInvert, determinant, symDeterminant"]}
{"id": "C47", "title": "Determinant laws", "statement": "determinant is multiplicative, invariant under transposition, equals the row-expansion over permutations, and symDeterminant equals the determinant of the corresponding dense matrix.", "quantifier": "every matrix over every commutative ring", "why_tests_cant": "Universal over matrices.", "anchors": ["src/fixedSizeSquareMatrixOpsImpl.hpp: determinant, symDeterminant"]}
{"id": "C48", "title": "Index-notation products are the sums they name", "statement": "Each of Rij_eq_AikBkj, Rij_eq_AikBjk, Rij_eq_AkiBkj, Ri_eq_AijBj, Ri_eq_AjiBj, Rij_eq_AiBj, AiBi and their add variants computes, for all sizes, the sum given by its name, and the products of transposes are related as in linear algebra.", "quantifier": "every matrix size and entries", "why_tests_cant": "Universal over sizes.", "anchors": ["src/genericTensorOps.hpp"]}
{"id": "C49", "title": "Symmetric-storage operations agree with dense ones", "statement": "symRij/symA operations on Voigt storage give the same result as the dense operation on symmetricToDense of the argument, and denseToSymmetric inverts symmetricToDense.", "quantifier": "every symmetric matrix (2x2, 3x3), every vector", "why_tests_cant": "Universal over entries.", "anchors": ["src/fixedSizeSquareMatrixOpsImpl.hpp: Ri_eq_symAijBj, Rij_eq_symAikBjk, Rij_eq_AikSymBklAjl, symmetricToDense, denseToSymmetric"]}
{"id": "C50", "title": "Cross product laws", "statement": "crossProduct is orthogonal to both arguments, antisymmetric and satisfies the Lagrange identity with AiBi and l2NormSquared.", "quantifier": "every pair of vectors over every commutative ring", "why_tests_cant": "Universal over entries.", "anchors": ["src/genericTensorOps.hpp: crossProduct, AiBi, l2NormSquared"]}
{"id": "C51", "title": "isValidPermutation accepts exactly permutations", "statement": "isValidPermutation is true iff the sequence contains each of 0..n-1 exactly once.", "quantifier": "every sequence of every length", "why_tests_cant": "Universal.", "anchors": ["src/typeManipulation.hpp: isValidPermutation"]}
{"id": "C52", "title": "Human readable sizes fit the fixed buffer", "statement": "calculateSize always yields at most 9 characters, so padding to width 9 never underflows, for every byte count.", "quantifier": "every byte count", "why_tests_cant": "2^64 inputs.", "anchors": ["src/system.cpp: calculateSize", "src/ChaiBuffer.hpp: setName"]}
{"id": "C53", "title": "resizeArray forwards an rvalue default only once", "statement": "ArrayOfArrays::resizeArray(i, n, args...) forwards its arguments to the constructor of every new element in turn. The new elements are v, mv v, mv (mv v), ... where mv v is what is left in an object after something was constructed from it; the other rows and values are unchanged. Hence every new element equals the argument exactly if there is at most one new element or the argument keeps its value (an lvalue, or a type without its own move constructor); an rvalue of any other type is consumed by the first new element.", "quantifier": "every history, row, new size, value and move semantics", "why_tests_cant": "Tests use trivially copyable values or one new element.", "anchors": ["src/arrayManipulation.hpp: resize", "src/ArrayOfArrays.hpp: resizeArray"]}
{"id": "C54", "title": "emplace with a reference to an own element", "statement": "a.emplace(p, a[i]) with size() < capacity() inserts a copy of a[i] when i < p; when i > p it inserts a copy of the old a[i-1] instead; when i == p it reads a slot whose object was just destroyed.", "quantifier": "every content, every p <= size(), every i < size(), every element type", "why_tests_cant": "The wrong value appears only for arguments aliasing the shifted part.", "anchors": ["src/arrayManipulation.hpp: emplace, shiftUp", "src/bufferManipulation.hpp: emplace"]}
{"id": "C55", "title": "setCapacity to any capacity keeps what fits and destroys the rest", "statement": "bufferManipulation::setCapacity(buf, size, newCapacity) on a MallocBuffer, for any newCapacity: afterwards capacity() == newCapacity, the first min(size, newCapacity) elements are unchanged, every other element was destroyed exactly once, and the old block was released without live elements in it.", "quantifier": "every element type, every contents, every newCapacity below or above the size", "why_tests_cant": "The containers never shrink a capacity this way, so the tests of the containers do not reach the branch; leaks show up only in leak checkers.", "anchors": ["src/bufferManipulation.hpp: setCapacity", "src/MallocBuffer.hpp: reallocate"]}
{"id": "C56", "title": "ArrayOfArrays capacities evolve exactly by the doubling rule", "statement": "After any valid history from ArrayOfArrays(n, cap), capacityOfArray(i) is exactly the value computed by: construction gives cap; an insertion that fits keeps the capacity, one that does not sets it to twice the new number of elements; appendArray(values)/insertArray(values) give twice the number of values; compress sets it to the size; setCapacityOfArray(i,c) sets it to c; resizeArray takes the maximum; all other calls keep it.", "quantifier": "every history, every n and cap, every inner array, every element type", "why_tests_cant": "A test fixes a history; the rule is about every history.", "anchors": ["src/ArrayOfArrays.hpp: dynamicallyGrowArray, appendArray, insertArray", "src/ArrayOfArraysView.hpp: setCapacityOfArray, compress"]}
{"id": "C57", "title": "Resizing a SparsityPattern to fewer columns makes later valid insertions corrupt memory", "statement": "After resize to fewer columns, rows keep the columns which are out of range now. A later insertNonZero of a column within range, into a row whose capacity must grow, first truncates that row to numColumns() columns and then inserts as if the row were still long: the row ends with more columns than capacity and columns of the next row are lost.", "quantifier": "existence of a history", "why_tests_cant": "Needs resize to fewer columns followed by a growing insertion; the result is silent corruption of another row.", "anchors": ["src/SparsityPattern.hpp: resize, setRowCapacity, insertNonZero, dynamicallyGrowRow"]}
{"id": "C58", "title": "Symmetric eigenvalues and eigenvectors", "statement": "Over the real numbers symEigenvalues< 2 > and symEigenvalues< 3 > return, in ascending order and with multiplicities, the roots of the characteristic polynomial, for every symmetric matrix: no square root of a negative number, no division by zero and no arc cosine outside [-1, 1] occurs. symEigenvectors returns orthonormal rows. For 2x2 matrices row i is an eigenvector of eigenvalue i; for 3x3 matrices the row of the most distinct eigenvalue is, all rows are if the two closest eigenvalues are more than 2 * epsilon * (largest - smallest) apart, and otherwise |A v - l v| is at most the distance of the two closest eigenvalues.", "quantifier": "every symmetric matrix of real numbers, every layout, every epsilon in [0, 1]", "why_tests_cant": "Degenerate and nearly degenerate matrices lie on thin sets that random tests miss, and the claim covers all real matrices; without rounding.", "anchors": ["src/fixedSizeSquareMatrixOpsImpl.hpp", "src/math.hpp"]}
{"id": "C59", "title": "Norms and normalisation", "statement": "maxAbsoluteEntry returns the largest absolute value of the entries; l2NormSquared equals AiBi of the vector with itself and l2Norm is its square root; after normalize the vector has norm one, the returned value is the old norm, and the vector times the returned value is the old vector.", "quantifier": "every vector size and entries, every total order and every square root", "why_tests_cant": "Universal over sizes and entries.", "anchors": ["src/genericTensorOps.hpp: maxAbsoluteEntry, l2NormSquared, l2Norm, normalize"]}
{"id": "C60", "title": "Elementwise operations", "statement": "fill, copy, scale, scaledCopy, addScalar, add, subtract, scaledAdd, hadamardProduct, transpose (also in place), addIdentity, trace, symAddIdentity and symTrace compute entry by entry what they are named after and write nothing else.", "quantifier": "every size, every strided layout, every entries", "why_tests_cant": "Universal over sizes and layouts.", "anchors": ["src/genericTensorOps.hpp"]}
{"id": "C61", "title": "tensorOps check extents", "statement": "With LVARRAY_BOUNDS_CHECK, every operation of tensorOps (elementwise, norms, determinants, inverses, symmetric products, eigenvalues and eigenvectors) given an operand that does not have the extents it is instantiated for stops the program before reading or writing anything; the only exception is the in place invert<3>.", "quantifier": "every sizes, every strided operand, every contents of memory", "why_tests_cant": "There are some 60 operations with up to three operands each; tests exercise a few mismatches.", "anchors": ["src/genericTensorOps.hpp", "src/fixedSizeSquareMatrixOpsImpl.hpp"]}
{"id": "C62", "title": "Machine integers", "statement": "Computed in a signed machine integer type with undefined overflow, calculateStrides, size() and operator() give the mathematical results without overflow whenever the product of the extents (empty extents counted as one) fits; exactly which products must fit is known, and an array without elements can overflow. Resizing one dimension, doubling a capacity and the binary search overflow only past stated bounds, and a MallocBuffer backs the capacity it reports exactly if the number of bytes does not wrap.", "quantifier": "every largest value of the type, every extents, permutation, index, sizes, outcome of the comparisons", "why_tests_cant": "Overflow needs extents that cannot be allocated in a test; the claim is for every integer width.", "anchors": ["src/indexing.hpp:76-243", "src/Array.hpp:608-680", "src/bufferManipulation.hpp:250-260", "src/sortedArrayManipulation.hpp:409-436", "src/MallocBuffer.hpp:128-143"]}
{"id": "C63", "title": "Process wide handlers", "statement": "setSignalHandling installs its handler for exactly the listed catchable signals and one resetSignalHandling brings back every handler (not after setting twice, and not if a number is listed twice); a FloatingPointExceptionGuard leaves the enabled exceptions as they were unless its block enables more; the last error handler set is the one that runs.", "quantifier": "every table of handlers, every list of signals, every nesting of guards, every history of setErrorHandler", "why_tests_cant": "Process wide state under arbitrary histories and nesting.", "anchors": ["src/system.cpp:437-585", "src/system.hpp:120-144"]}
{"id": "C64", "title": "Arrays of arrays move between memory spaces", "statement": "Under a stated protocol, programs that move, copy, touch, grow, read and write an array of arrays whose buffers live in two memory spaces read what they would read from a list of lists: the handles in the outer block of a space point to the inner blocks of that space. With only the array itself as a handle every move is allowed. The protocol is needed: a touching move to the current space does not touch the inner arrays, a second handle can send host code through a device pointer, and an inner array that grows under an untouched outer array leaves a dangling handle.", "quantifier": "every program (any length) over any number of inner arrays and outer handles that follows the protocol", "why_tests_cant": "Handles on two levels, stale in ways that depend on the whole history of moves and touches; needs a device to observe.", "anchors": ["src/ChaiBuffer.hpp:361-391", "src/ChaiBuffer.hpp:463-482", "src/ChaiBuffer.hpp:193-214", "src/ArrayView.hpp:127-132", "src/ArrayView.hpp:686-687", "src/bufferManipulation.hpp:250-259"]}
{"id": "C65", "title": "Elements of the container itself as arguments of ArrayOfArrays and of Array::insert", "statement": "appendToArray, emplaceBack, emplace, insertIntoArray, appendArray and insertArray of an ArrayOfArrays given references into the array itself do what they do with copies when m_values is not reallocated and the referenced elements are not shifted: they are in an inner array not behind one that grows, and for insertions not behind the position. When m_values is reallocated they read freed memory. When inner arrays behind the growing one are shifted, emplaceBack appends whatever element moved to the old address, or reads a destroyed object. Array::insert of an own range inserts it if it ends before the position, repeats its front part if it reaches over the position, inserts the range n elements earlier if it starts n behind it, and otherwise reads a destroyed object.", "quantifier": "every valid history of an ArrayOfArrays or Array, all positions and range lengths, every element type", "why_tests_cant": "Whether the call is right depends on capacities and on where the element lies relative to the growing array; wrong values are appended silently.", "anchors": ["src/ArrayOfArrays.hpp:288-318", "src/ArrayOfArrays.hpp:348-399", "src/ArrayOfArrays.hpp:474-483", "src/ArrayOfArraysView.hpp:876-942", "src/arrayManipulation.hpp:422-519", "src/bufferManipulation.hpp:338-350", "src/Array.hpp:526-529"]}
{"id": "C66", "title": "Reference counts of Python objects", "statement": "A program made of PyObjectRefs, plain owning pointers and new Python objects which only gives away references it owns never touches a deallocated object; the count of every object equals the number of references to it, and when nobody owns a reference every object has been deallocated. References are lost only by copy and move assignment between PyObjectRefs, and then forever: these assignments do not give up the object held before. callPyFunc, PythonFunction::operator() and addTypeToModule leave the references balanced whatever fails. addPyLvArrayModule leaves the count of pylvarray one short, createCupyArrayImpl uses deallocated objects for every array with a dimension, to_scipy never gives up its three arrays, and create loses its new object when there is no NumPy type.", "quantifier": "every program over PyObjectRefs, every heap whose counts match its references, every failure of the Python calls", "why_tests_cant": "A count which is one off shows up only when the last owner lets go, often at interpreter shutdown or as memory growth over a long run.", "anchors": ["src/python/pythonHelpers.hpp:138-259", "src/python/pythonHelpers.cpp:35-78", "src/python/PyFunc.cpp:38-54", "src/python/PyFunc.hpp:80-103", "src/python/python.cpp:146-155", "src/python/numpyHelpers.cpp:155-217", "src/python/PyCRSMatrix.cpp:156-190", "src/python/PyArray.cpp:284-304"]}
{"id": "C67", "title": "pylvarray.ArrayOfArrays is a list of lists behind an access level", "statement": "Every Python program over an exported ArrayOfArrays (len, indexing with negative indices, iteration, del, assignment through row views, insert, insert_into, erase_from, access levels) returns and raises what the same program over a list of lists does, never aborts the process or leaves the buffers, even without bounds checking, and leaves an array that C++ calls could have made. Below MODIFIABLE nothing changes, below RESIZEABLE the shape does not. An object made by calling the type instead of by C++ makes insert, insert_into, erase_from and del dereference a null pointer, and rows of the array itself given as values are inserted wrongly or read after free.", "quantifier": "every history of C++ calls, every Python program of any length, all integers as indices and levels, bounds checks on or off", "why_tests_cant": "Python callers choose arbitrary indices, and the access level is checked in every method separately; a missing check is a crash of the interpreter only for particular states.", "anchors": ["src/python/PyArrayOfArrays.cpp:53-268", "src/python/PyArrayOfArrays.hpp:151-267", "src/python/numpyHelpers.cpp:44-111", "src/python/numpyHelpers.cpp:233-336"]}
{"id": "C68", "title": "pylvarray.SortedArray and ArrayOfSets are sets behind an access level", "statement": "Every Python program over an exported SortedArray or ArrayOfSets whose value arguments are sorted without duplicates returns and raises what the same program over sets does, never aborts the process or leaves the buffers, and leaves a container that C++ calls could have made. Below RESIZEABLE nothing changes and no view is ever writeable. Sortedness of the values is not checked: on every non-empty set inserting [m, v] with its minimum m and any v < m writes in front of the allocation; repeated values break the order or make the size negative. A capacity over the index type ends the process, and methods of an uninitialised ArrayOfSets dereference a null pointer.", "quantifier": "every history of C++ calls, every Python program of any length, all integers as indices, capacities and levels, every total order, bounds checks on or off", "why_tests_cant": "The values come from the Python user, so that they are sorted is an assumption no test of the C++ code checks; which states the failure corrupts silently depends on the neighbouring sets and the capacity.", "anchors": ["src/python/PySortedArray.cpp:54-210", "src/python/PySortedArray.hpp:118-190", "src/python/PyArrayOfSets.cpp:53-275", "src/python/PyArrayOfSets.hpp:143-245", "src/sortedArrayManipulation.hpp:511-758"]}
{"id": "C69", "title": "pylvarray.CRSMatrix is a matrix of rows behind an access level", "statement": "Every Python program over an exported CRSMatrix that hands over sorted unique columns within the matrix, and only existing columns to add_to_row, returns and raises what the same program over finite maps from columns to entries does, never ends the process or leaves the buffers, and leaves a matrix that C++ can go on with. After compress, to_scipy gives arrays in compressed row format that describe exactly these rows. Below RESIZEABLE the columns cannot change; with READ_ONLY nothing can. Columns are not checked: those outside the matrix or out of order are inserted; add_to_row with a column that is not in the row adds to the next larger one, and with fewer columns than values reads after them. A negative access level lets entries be written.", "quantifier": "every history of C++ calls, every Python program of any length, all integers as rows, dimensions and levels, any type of entries, any conversion of NumPy types, bounds checks on or off", "why_tests_cant": "The columns come from the Python user; which entry is corrupted, and whether the corruption is seen, depends on the other columns of the row, on its capacity and on the next row.", "anchors": ["src/python/PyCRSMatrix.cpp:88-386", "src/python/PyCRSMatrix.hpp:255-370", "src/CRSMatrixView.hpp:507-525", "src/CRSMatrix.hpp:389-394"]}
{"id": "C70", "title": "The values of an N-dimensional Array, after any history of calls", "statement": "Whatever the order of the dimensions in memory, every history of resize, resizeDimension, resize along one dimension, resizeDefault, clear, setSingleParameterResizeIndex, reserve and element writes within their preconditions succeeds and leaves exactly the values of the specification: resizing along one dimension keeps every value at its index and puts the given value at the new indices; changing all extents keeps every value at its place in memory; memory holds exactly these values in order, without a leak. With bounds checks every call outside its precondition ends the program. Memory is moved only when there is no room.", "quantifier": "every permutation of every number of dimensions, every history of any length, every element type, all extents, bounds checks on or off", "why_tests_cant": "Tests resize a few small arrays with a few layouts; the loops that shift blocks depend on the layout, the dimension resized, and the order of earlier calls.", "anchors": ["src/Array.hpp:293-476", "src/Array.hpp:590-680", "src/ArrayView.hpp:420-470"]}
{"id": "C71", "title": "resizeWithoutInitializationOrDestruction keeps what fits and nothing else is known", "statement": "After any history of other calls, any sequence of resizeWithoutInitializationOrDestruction and element writes succeeds; values that stay within the memory of the array and values written since are read back, and once all values are known the array behaves as specified in every later history. An element that is neither kept nor written has no value: reading it reads memory without an object. With more than one dimension the kept values change their index.", "quantifier": "every permutation of every number of dimensions, every history of any length, every trivially destructible element type, all extents", "why_tests_cant": "Reading an element that was never written usually gives some value, so a test does not notice.", "anchors": ["src/Array.hpp:340-384"]}
{"id": "C72", "title": "The Python type Array and the NumPy arrays on its memory", "statement": "For every array that C++ leaves, every program of calls of the methods of pylvarray.Array, of reads, writes and parts of the NumPy arrays that to_numpy returned, and of calls from C++ in between returns and raises what the same program does over an N-dimensional array of values, and leaves the array with these values, whatever the order of the dimensions in memory. Below MODIFIABLE a program cannot change a value and below RESIZEABLE not an extent, and then no NumPy array gets into freed memory. NumPy arrays are not told when the memory moves or the access level is lowered; extents out of range end the process; to_numpy ends the process for empty arrays with a stride of more than 2^63 bytes.", "quantifier": "every permutation of every number of dimensions, every program of any length, all extents and indices, every element type with a NumPy type, every access level", "why_tests_cant": "Tests make one NumPy array of a small array and look at its values; what an old NumPy array sees after resizes depends on room in memory and on the order of calls.", "anchors": ["src/python/PyArray.cpp:1-311", "src/python/PyArray.hpp:30-160", "src/python/numpyHelpers.cpp:105-155"]}
{"id": "C73", "title": "Elements of the container itself as arguments of SortedArray and ArrayOfSets", "statement": "insert and remove of a SortedArray, given one of its elements or a range of its iterators, insert nothing and remove exactly the elements named, although removal moves elements over the ones it is given. removeFromSet of an ArrayOfSets given elements of any of its sets does what it does with copies. insertIntoSet does so if the elements are in the same set, or the set has room, or they are in an earlier set and m_values keeps its block; when m_values gets a new block freed memory is read, and when a later set is shifted another value may be inserted or a slot without a value read.", "quantifier": "every valid history of a SortedArray or ArrayOfSets, all sets, positions and range lengths, every totally ordered element type", "why_tests_cant": "Whether the call is right depends on capacities and on the order of the sets; the removal of an own range is right only because its elements are adjacent, which tests with separate vectors never use.", "anchors": ["src/SortedArray.hpp:223-287", "src/ArrayOfSets.hpp:378-416", "src/ArrayOfSets.hpp:488-535", "src/ArrayOfSetsView.hpp:364-460", "src/sortedArrayManipulation.hpp:471-758"]}
{"id": "C74", "title": "Containers of several buffers in two memory spaces", "statement": "A container made of several ChaiBuffers (offsets, sizes, values, ...) behaves in host and device memory as it does in one memory, if its host methods are called only at the beginning and after move( host, true ): kernels which capture views of it, in either space and with any const-ness, and moves may come in any order; code which uses the container itself in a space comes after a move to it. For ArrayOfArrays the reports of every such program are those of a vector of vectors. After a host kernel which captured toView() the methods of ArrayOfArrays may be called without a move, since they mark the offsets as modified whenever they change them in place, with the exceptions compress, resizeFromCapacities, appendArray and insertArray of no values and eraseArray of an array without capacity: these leave the device with old offsets.", "quantifier": "all programs of host methods, kernels, moves and touches, all numbers of buffers and members, all contents; for ArrayOfArrays all element values, all methods and all calls in kernels", "why_tests_cant": "Whether the device sees the offsets of the host depends on the history of moves, on capacities and on the const-ness of captured views; tests run one or two histories, need a GPU, and old offsets often point to values that are still there.", "anchors": ["src/ArrayOfArraysView.hpp:568-590", "src/ArrayOfArraysView.hpp:876-942", "src/ArrayOfArrays.hpp:96-143", "src/ArrayOfArrays.hpp:269-483", "src/ChaiBuffer.hpp:183-239", "src/ChaiBuffer.hpp:281-313", "src/ChaiBuffer.hpp:398-436", "src/bufferManipulation.hpp:272-286", "src/SortedArrayView.hpp:273-279", "src/CRSMatrixView.hpp:539-543"]}
{"id": "C75", "title": "Machine integers in ArrayOfArrays", "statement": "Computed in a signed INDEX_TYPE with undefined overflow, every program on an ArrayOfArrays either has the outcome of unbounded arithmetic or overflows. With room for one number more than there are arrays it overflows if and only if the sum of the capacities does not fit after some call; otherwise the contents are those of a vector of vectors. Programs which only add elements do not overflow while twice the number of elements fits; appendArray( first, last ) of more than half the largest INDEX_TYPE overflows.", "quantifier": "all largest values of the index type, all programs, all states (same outcome or overflow), all contents; with and without bounds checks", "why_tests_cant": "The bound is reached only by containers of 2^30 and more elements; the claim is for every integer width and every order of calls.", "anchors": ["src/ArrayOfArraysView.hpp:381-555", "src/ArrayOfArraysView.hpp:625-796", "src/ArrayOfArraysView.hpp:876-942", "src/ArrayOfArrays.hpp:269-483"]}
{"id": "C76", "title": "What an exception leaves of an Array", "statement": "When the (n+1)-th copy or assignment of an element inside a method of Array throws, the array left behind is determined by the call, the contents and n: emplace_back, emplace and insert at the end with n = 0 and assignments leave it as it was; emplace in the middle, an insert which has not filled the gap and every growing resize leave a destructor that destroys slots holding no object; the remaining inserts leave objects that are never destroyed. With enough operations succeeding the call is the one of C01 and C13. Constructors with extents and copy assignments behave accordingly. A throwing error handler leaves one dimensional arrays unchanged, but resize with several extents stores a negative extent and loses the elements, and a StackBuffer array keeps a size beyond its buffer.", "quantifier": "all histories, contents, calls, all numbers n of operations before the exception; all ranks and permutations for the extents and copies; programs that catch and go on, of any length", "why_tests_cant": "Tests with throwing element types would have to throw at every position of every call from every state; the test suite has none.", "anchors": ["src/Array.hpp:106-185", "src/Array.hpp:293-338", "src/Array.hpp:392-414", "src/Array.hpp:493-529", "src/Array.hpp:590-680", "src/bufferManipulation.hpp:294-411", "src/arrayManipulation.hpp:176-440", "src/system.hpp:60-75"]}
{"id": "C77", "title": "Comparison macros", "statement": "A use of LVARRAY_ERROR_IF_<R>, LVARRAY_THROW_IF_<R> (with or without _MSG) or LVARRAY_ASSERT_<R> with numeric operands compiles if and only if both operands can stand unparenthesised in a chain of <<; then it reports exactly if the relation R holds (fails, for assertions) between the values of the operands, evaluates each operand once when silent and twice when it reports, and shows the values compared and the opposite relation. Assertions vanish with NDEBUG. False for LVARRAY_ERROR_IF_LE and LVARRAY_THROW_IF_LE, which test >=.", "quantifier": "all macros of the family, all operand expressions (token lists) over numbers, identifiers, parentheses, ! - and the binary operators, all values", "why_tests_cant": "Macros are tested through the values that happen to be passed; the two wrong ones are not used by any test, and operand syntax is unbounded.", "anchors": ["src/Macros.hpp:96-184", "src/Macros.hpp:244-265", "src/Macros.hpp:273-457", "src/Macros.hpp:466-530"]}
{"id": "C78", "title": "Printed text of SortedArray, ArrayOfArrays and CRSMatrix", "statement": "After any valid history operator<< prints exactly the elements in order (SortedArray), one numbered line per array (ArrayOfArrays), or columns and values of each row at the same positions (CRSMatrix). If elements are printed as distinct tokens, two containers print the same text if and only if they have the same contents, whatever their capacities; the text of a SortedArray is read back by stringToArray. print of a CRSMatrix shows sizes, offsets and non-zeros; after compress its text depends on the rows only. False before compress, and for elements whose text contains delimiters.", "quantifier": "all histories of each container, all element types and printers, bounds checks on or off", "why_tests_cant": "Text equality of two containers with different histories is a relation between two runs; the tests print a few literals.", "anchors": ["src/output.hpp:97-135", "src/output.hpp:145-177", "src/output.hpp:187-201", "src/output.hpp:213-256", "src/output.hpp:266-298"]}
{"id": "C79", "title": "Columns and entries of a CRSMatrix as arguments of its own calls", "statement": "After any valid history, insertNonZero( i, col, m.getEntries( k )[ l ] ) and insertNonZeros with entries, or columns and entries, of row k of the same matrix insert exactly the values named if the block of m_entries (and of m_values) is kept and row k is not moved: k < i, or k > i and row i has room, or (one entry) k = i and the entry named is in front of the new one, or nothing is new. If a block is replaced the argument dangles. removeNonZeros with columns of any row removes exactly these columns. Through a view only entries of the row itself matter. False otherwise: an entry of row i behind the new one silently becomes the entry before it; entries of a row behind one which grows are read at the old place, and with own columns the row is no longer sorted; class types are read after being moved away.", "quantifier": "all histories, rows i and k, positions and ranges, columns, trivially copyable T or not, bounds checks on or off", "why_tests_cant": "Whether an argument is still valid when it is read depends on capacities and positions of both rows; a test fixes one of the many cases, and reads of moved rows give plausible values.", "anchors": ["src/CRSMatrix.hpp:378-404", "src/CRSMatrix.hpp:508-609", "src/CRSMatrixView.hpp:278-330", "src/CRSMatrixView.hpp:579-706", "src/sortedArrayManipulation.hpp:397-520"]}
{"id": "C80", "title": "Machine integers in ArrayOfSets, SparsityPattern and CRSMatrix", "statement": "Computed in a signed INDEX_TYPE with undefined overflow, every program on an ArrayOfSets, SparsityPattern or CRSMatrix either has the outcome of unbounded arithmetic or overflows. A program which keeps a pattern or matrix within N rows and Q columns (an ArrayOfSets within N sets of Q / 2 elements) and asks for capacities of at most Q does not overflow if N + 1, N * Q and (pattern, matrix) 2 * Q can be represented, and has the contents of the specification; the same holds for numNonZeros(). The bound 2 * Q is needed: inserting into a row at its capacity overflows whenever twice the new size does not fit, even if the number of columns, to which the capacity is cut down afterwards, does.", "quantifier": "all largest values of the index type, all programs, row and column bounds, contents; with and without bounds checks", "why_tests_cant": "The bounds are reached only by containers of 2^30 and more elements; the claim is for every integer width and every order of calls.", "anchors": ["src/ArrayOfSets.hpp:318-362", "src/ArrayOfSets.hpp:440-522", "src/ArrayOfSetsView.hpp:364-460", "src/SparsityPattern.hpp:129-138", "src/SparsityPattern.hpp:244-306", "src/SparsityPattern.hpp:380-420", "src/SparsityPatternView.hpp:206-215", "src/CRSMatrix.hpp:313-404", "src/CRSMatrix.hpp:495-609", "src/CRSMatrixView.hpp:579-706"]}
{"id": "C81", "title": "consistencyCheck and assimilate of arrays which are not as described", "statement": "consistencyCheck() passes on every ArrayOfSets that can be reached, and on arbitrary arrays passes exactly if every array is strictly increasing; otherwise it ends in the error handler, in every build. assimilate( src, desc ) with the check switched on accepts exactly the arrays for which the result is a set: strictly increasing ones for SORTED_UNIQUE, ones without repetition for UNSORTED_NO_DUPLICATES, all for the two others; from unsorted arrays called SORTED_WITH_DUPLICATES it keeps exactly the values larger than all values before them. The check is compiled only if ARRAY_BOUNDS_CHECK is defined, which nothing defines: as built, assimilate accepts every array under every description.", "quantifier": "all contents, descriptions and histories of source and target; with and without bounds checks", "why_tests_cant": "The claim is about all contents; tests only assimilate arrays that are as described, with which the missing check makes no difference.", "anchors": ["src/ArrayOfSetsView.hpp:201-219", "src/ArrayOfSets.hpp:128-173", "src/sortedArrayManipulation.hpp:305-395", "src/LvArrayConfig.hpp.in:21"]}
{"id": "C82", "title": "Exceptions leaving the methods of ArrayOfArrays", "statement": "When an element's copy constructor or assignment throws inside a method of ArrayOfArrays, the state left is exactly the one specified by the call and the number of operations that succeeded: usable with the old contents (plus an empty array for appendArray and insertArray) and the new capacities, or showing the right contents while its destructor forgets objects, or with a gap that its destructor destroys. Until something is thrown each call does what it does without exceptions. An error handler that throws leaves the contents as they were. Copy assignment and copy construction do not survive an exception: the first leaves an object whose destructor destroys places without objects, the second loses what it built.", "quantifier": "all element types that are not trivially copyable, histories, calls, and positions of the throwing operation; all programs that catch and go on", "why_tests_cant": "Tests never throw from an element, and there is one state per call, contents and position of the throw.", "anchors": ["src/ArrayOfArrays.hpp:67-81,169-177,269-431", "src/ArrayOfArraysView.hpp:441-555,829-865", "src/arrayManipulation.hpp:176-188,282-309,422-519"]}
{"id": "C83", "title": "Exceptions leaving the methods of SortedArray", "statement": "When the copy of an element throws inside insert, the state left is the one specified by the elements, the values that were new, and the number of copies that succeeded: values are built from the greatest down; if the one that threw belongs behind all elements these are unharmed (objects already built are forgotten), otherwise a gap is left that the destructor destroys. remove, clear and reserve do not throw. Copy assignment leaves, depending on the two sizes, a gap, forgotten objects, or a mixture of both arrays that need not be sorted, so that contains denies values the array shows and insert adds them again. The copy constructor loses its allocation and the objects in it.", "quantifier": "all element types that are not trivially copyable with a total order, histories, calls with sorted ranges, and positions of the throwing operation; all programs that catch and go on", "why_tests_cant": "Tests never throw from an element, and the state depends on the contents, the range and the position of the throw.", "anchors": ["src/SortedArray.hpp:76-106,223-311", "src/sortedArrayManipulation.hpp:618-758", "src/bufferManipulation.hpp:393-411"]}
{"id": "C84", "title": "Exceptions leaving the methods of ArrayOfSets", "statement": "When the copy of an element throws inside insertIntoSet, of one value or a range, the state left is the one specified by the elements of that set, the values that were new and the number of copies that succeeded: either the object shows the same sets and can be used, or it has forgotten objects already built, or one set has a gap which the destructor destroys, while all other sets and the elements before the gap are intact. The insertions of the view within the capacity leave the same. No other call throws. A rejected index with a throwing error handler leaves the object unchanged. An exception while copying leaves an object that cannot be destroyed, however many elements were copied.", "quantifier": "all element types that are not trivially copyable with a total order, histories, calls with sorted ranges, and positions of the throwing operation; all programs that catch and go on", "why_tests_cant": "Tests never throw from an element, and the state depends on the contents, the range and the position of the throw.", "anchors": ["src/ArrayOfSetsView.hpp:364-407", "src/ArrayOfSets.hpp:68-106,378-395,488-535", "src/sortedArrayManipulation.hpp:618-758"]}
{"id": "C85", "title": "Exceptions leaving the methods of CRSMatrix", "statement": "When building, assigning or adding to an entry throws inside insertNonZero, insertNonZeros, setValues or addToRow, the matrix left is the one specified. setValues and addToRow leave a usable matrix in which exactly the first n entries have been treated. An insertion leaves the same rows and a usable matrix, or has forgotten entries already built, or one row has a gap which the destructor destroys, while all other rows and the non-zeros before the gap are intact. The insertion of the view within the capacity leaves the same. No other modelled call throws. A rejected row or number of columns with a throwing error handler leaves the matrix unchanged.", "quantifier": "all entry types that are not trivially copyable, histories, calls with arguments that keep the rules, and positions of the throwing operation; all programs that catch and go on", "why_tests_cant": "Tests never throw from an entry, and the state depends on the row, the columns and the position of the throw.", "anchors": ["src/CRSMatrix.hpp:378-392,508-609", "src/CRSMatrixView.hpp:278-293,345-357,399-525,579-706", "src/sortedArrayManipulation.hpp:618-758"]}
{"id": "C86", "title": "capacity() of ArrayOfArrays and ArrayOfSets", "statement": "After every history the number of arrays and the capacities of m_sizes and m_offsets are given by a small numeric specification (doubling on demand for appended or inserted arrays, maximum for resize and reserve). After reserve( m ) neither block is replaced as long as there are never more than m arrays. capacity() returns the documented number of arrays exactly in the states which its debug assertion accepts, which includes all histories without calls adding single arrays. Both are wrong in general: for every n0, n0 + 3 calls of appendArray (or appendSet) after construction with n0 arrays lead to a state in which a debug build stops inside capacity() and a release build returns 4 n0 + 6 although no further array fits without reallocation.", "quantifier": "all element types, checks, initial sizes and histories; the counterexample for every initial number of arrays", "why_tests_cant": "The two blocks double at different moments; the mismatch depends on the whole history of growth, and the unit tests call capacity() only after reserving the room they use.", "anchors": ["src/ArrayOfArraysView.hpp:366-374,625-653,698-796", "src/ArrayOfArrays.hpp:269-332", "src/ArrayOfSets.hpp:318-362", "src/bufferManipulation.hpp:230-324"]}
{"id": "C87", "title": "Assertions of a debug build in Array and ArrayOfArrays", "statement": "Compiling with the LVARRAY_ASSERTs of arrayManipulation.hpp enabled only adds aborts. Every call history of the N-dimensional interface of Array, every history on a StackBuffer and every destructor which ends normally without assertions ends with the same object with them. A valid history on a one dimensional Array with a MallocBuffer ends the same unless it inserts an empty range before any call needed room, in which case it always aborts. A valid history on an ArrayOfArrays ends the same if it inserts no empty range into an inner array; more precisely a valid call aborts exactly when it is insertIntoArray of an empty range while valueCapacity() is zero. With bounds checks and assertions every history on a one dimensional array is carried out as on a vector or aborts, pop_back() on an empty array included.", "quantifier": "all element types, checks, permutations, histories and (where stated) all states", "why_tests_cant": "The tests run a few histories per build type; an assertion may fail in any reachable state, and comparing the two builds for all histories needs an invariant on the block pointer.", "anchors": ["src/arrayManipulation.hpp:151-536", "src/bufferManipulation.hpp:188-379", "src/Array.hpp:293-680", "src/ArrayOfArrays.hpp:269-483", "src/ArrayOfArraysView.hpp:441-1010", "src/Macros.hpp:156-184"]}
{"id": "C88", "title": "SortedArray in a debug build: a set or an abort", "statement": "With the LVARRAY_ASSERTs of sortedArrayManipulation.hpp and arrayManipulation.hpp enabled, every call history on a SortedArray whose range arguments are sorted and unique, with all searches in it and its destructor, ends exactly as without assertions. The first call whose range argument is not sorted or has duplicates aborts. So every history with arbitrary arguments is either carried out as on a mathematical set or aborts; there is no undefined behaviour. Without assertions the same mistakes can leave an array that does not find an inserted value.", "quantifier": "all value types with a total order, trivial or not, with and without bounds checks, all call histories and all range arguments", "why_tests_cant": "The assertions of find are evaluated on every intermediate sub-range of every insert and remove; tests run few histories and never the failing ranges, because the process dies.", "anchors": ["src/sortedArrayManipulation.hpp:267-294", "src/sortedArrayManipulation.hpp:372-758", "src/SortedArray.hpp:223-383", "src/SortedArrayView.hpp:196-205", "src/arrayManipulation.hpp:323-487"]}
{"id": "C89", "title": "Adding to a matrix row in a debug build", "statement": "With LVARRAY_ASSERT enabled, addToRow, addToRowBinarySearch, addToRowLinearSearch and addToRowBinarySearchUnsorted on any row of a CRSMatrix after any valid history behave exactly as in a release build when every column is in the row (and the range sorted and unique where that is required). Both binary searches abort for every other argument. The linear search aborts for every range that is not sorted and unique, and for the first missing column as long as a column of the row larger than all columns added before is left. Once the last column of the row has been used the assertion on line 488 compares memory behind the row: the statement 'a missing column aborts' is false there.", "quantifier": "all entry types and additions, trivial or not, with and without bounds checks, all valid histories, all rows and all lists of columns and values", "why_tests_cant": "Only rows whose spare room or successor row happens to hold a certain column go wrong; tests that add to missing columns die on the assertion.", "anchors": ["src/CRSMatrixView.hpp:399-525", "src/sortedArrayManipulation.hpp:372-445"]}
{"id": "C90", "title": "ArrayOfSets in a debug build: sets or an abort", "statement": "With LVARRAY_ASSERT enabled, every valid call history on an ArrayOfSets that ends normally in a release build ends with the same array in a debug build, whose sets can all be searched and which can be destroyed. With LVARRAY_BOUNDS_CHECK as well, every history with arbitrary indices and range arguments is either carried out as on a vector of mathematical sets or aborts. assimilate with a true description does the same as without assertions; SORTED_WITH_DUPLICATES claimed of an array that is not sorted always aborts. The other two descriptions with a requirement are not checked.", "quantifier": "all value types with a total order, trivial or not (sets-or-abort: trivially copyable), all call histories, all arrays of arrays handed to assimilate and all sorts that sort", "why_tests_cant": "The assertions are evaluated on intermediate sub-ranges while rows move in memory; the failing cases end the process and are not tested.", "anchors": ["src/ArrayOfSets.hpp:129-173", "src/ArrayOfSets.hpp:318-535", "src/ArrayOfSetsView.hpp:192-512", "src/sortedArrayManipulation.hpp:305-758"]}
{"id": "C91", "title": "SparsityPattern in a debug build: sets of columns or an abort", "statement": "With LVARRAY_ASSERT enabled, every valid call history on a SparsityPattern ends with the same pattern as in a release build; empty() and the insertions through a view do the same on it. With LVARRAY_BOUNDS_CHECK as well, every history with arbitrary rows, range arguments and columns to remove, whose inserted columns are within range and whose resizes cut off no column in use, is carried out as on a vector of sets of columns or aborts. Without these two conditions it is neither: a column out of range, or a row made too long by a resize, is written over the next row in a debug build as well.", "quantifier": "all column types, all call histories, all rows, ranges and columns", "why_tests_cant": "The assertions are evaluated on intermediate sub-ranges while rows move in memory; the failing cases end the process and are not tested, and the overwritten neighbour is silent.", "anchors": ["src/SparsityPattern.hpp:129-437", "src/SparsityPatternView.hpp:265-452", "src/ArrayOfSetsView.hpp:261-512", "src/sortedArrayManipulation.hpp:411-758"]}
{"id": "C92", "title": "CRSMatrix in a debug build: maps or an abort", "statement": "With LVARRAY_ASSERT enabled, every valid call history on a CRSMatrix ends with the same matrix as in a release build whenever that one ends normally; the insertions through a view, the destructor and assimilate do the same on it. With LVARRAY_BOUNDS_CHECK and entries of a trivial type as well, every history with arbitrary rows, range arguments, columns to remove and columns for the unsorted addToRow, whose inserted columns are within range, whose resizes cut off no column in use and whose addToRow names columns of the row, is carried out as on a vector of maps or aborts. Without the condition on inserted columns it is neither: the column and its entry are written over those of the next row.", "quantifier": "all entry and column types, all call histories, all rows, ranges, columns and entries", "why_tests_cant": "The assertions are evaluated on both buffers in the middle of insertions and removals; the failing cases end the process and are not tested, and the overwritten neighbour is silent.", "anchors": ["src/CRSMatrix.hpp:84-165", "src/CRSMatrix.hpp:335-609", "src/CRSMatrixView.hpp:278-525", "src/CRSMatrixView.hpp:579-706", "src/arrayManipulation.hpp:140-519"]}
{"id": "C93", "title": "A failing std::malloc: the vector, or the null pointer used", "statement": "MallocBuffer::reallocate stores the pointer and the capacity without looking at the pointer. For every valid call history on a one dimensional Array and every pattern of failing allocations: a call sequence that returns leaves exactly the vector, which can be destroyed; otherwise a release build has accessed memory through the null pointer and never aborts, and a debug build aborts and never makes a wrong access. A call that needs more room than capacity() on a non-empty array and is refused by malloc always ends that way. On an empty array reserve(n) returns normally with capacity() == n although nothing was allocated; the next emplace_back is the bad access. With more dimensions the assertions are not enough: resize(n) of the second dimension of an array of shape (1, 0) writes through the null pointer in a debug build too.", "quantifier": "all element types, all call histories, all patterns of failing allocations, with and without bounds checks and assertions", "why_tests_cant": "The tests never run out of memory, and a failing allocation cannot be provoked at each point of each history.", "anchors": ["src/MallocBuffer.hpp:128-142", "src/bufferManipulation.hpp:144-379", "src/arrayManipulation.hpp:151-536", "src/Array.hpp:441-605"]}
{"id": "C94", "title": "dualSort in a debug build: sorted or an abort", "statement": "With LVARRAY_ASSERT enabled, dualSort and the device branch of makeSorted, under every strict weak order, either return exactly what the release build returns (the same pairs, sorted, nothing else changed) or abort, and they abort exactly when the release build writes past the end of its array of ranges. There are valid inputs of 125 elements on which they abort.", "quantifier": "all element types, all strict weak orders, all inputs, every value of MAX_RANGES", "why_tests_cant": "The assertion fires only for inputs whose partitions are very uneven; random data never comes near 31 pending ranges.", "anchors": ["src/sortedArrayManipulationHelpers.hpp:641-665", "src/sortedArrayManipulation.hpp:210-255"]}
{"id": "C95", "title": "size(dim) and stride(dim): exact within range, and what the checks miss", "statement": "For every array, permutation and chain of operator[], size(dim) and stride(dim) of the slice are the extent and the stride of that dimension, and size(dim) of the array the extent it shares with the slice. With a dimension that does not exist, size(dim) of an Array or ArrayView aborts only when both LVARRAY_BOUNDS_CHECK and the assertions are compiled in and reads outside m_dims in every other build; a slice with bounds checks aborts for dimensions too large but for a negative one silently returns the extent or stride of a dimension that has been sliced away, or reads outside.", "quantifier": "all extents, permutations, chains of operator[], dimensions (negative and too large included), all four builds", "why_tests_cant": "The result depends on a combination of two build options; the tests only ask for dimensions that exist.", "anchors": ["src/ArrayView.hpp:415-423", "src/ArraySlice.hpp:190-209", "src/ArraySlice.hpp:276-282"]}
