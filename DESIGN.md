# LvArray formal model: design

## 1. Approach

The model is written in Gallina (Coq 8.16.1), function by function after the C++ in
`/repo/src`. Every model definition carries a comment with the file and lines it models.
Nothing from `/repo` is compiled or run.

* **Outcomes.** Every operation returns `Ok x`, `Abort` (an `LVARRAY_ERROR...` macro fired; the
  program stops), or `Fault r` (undefined behaviour: an out-of-range access, a read/move/destroy of
  a slot holding no object, a construction on top of a live value, ...; `r` says which).
* **Memory.** A buffer is a list of cells, its length being the capacity. A cell is `Raw` (no
  object), `Obj v` (live object with value v) or `Hollow` (moved-from, still to be destroyed or
  overwritten). A flag `triv` says whether `T` is trivially copyable/destructible: then moving or
  destroying a raw slot is a byte copy / no-op and not undefined behaviour.
* **Bounds checks.** A flag `chk` says whether the library was compiled with
  `LVARRAY_BOUNDS_CHECK`. `LVARRAY_ASSERT` (debug builds) is modelled in the files `Debug*`, `MallocFail` and `DimQuery` only (C87 to C95); elsewhere: release semantics.
* **Histories.** Containers are state machines; a history is a list of calls; properties are proved
  by induction over histories against an abstract specification (plain lists, finite sets, finite
  maps) that does not mention the implementation.
* **Concurrency.** Threads are sequences of atomic steps on a shared state; a schedule is any
  interleaving; properties hold for every interleaving.
* **Arithmetic.** Indices are unbounded `nat`/`Z` (machine overflow of `INDEX_TYPE` is
  the subject of C62, of C75 (`ArrayOfArrays`), of C80 (containers of sets) and, with `integerConversion`, of C41; elsewhere it is not modelled). Floating point is not
  modelled: `tensorOps` are stated over an abstract commutative ring/field (or R for sqrt/acos).

## 2. Properties and plan

| Id | Modelled how | Proof |
|----|--------------|-------|
| C01 | `arrayManipulation`, `bufferManipulation`, `MallocBuffer`, 1-D `Array` on cells; spec = list | refinement by induction over histories |
| C02 | same; strict (non-trivial) cells; destructor | invariant: exactly the first `size` cells hold objects |
| C03 | same; reallocation counter/moved-element counter | invariant + arithmetic |
| C04 | argument = reference into own buffer, read at construction time | case analysis on capacity, witness |
| C05 | `StackBuffer::reallocate` as other buffer kind | refinement |
| C06-C08 | `calculateStrides`, `getLinearIndex`, slices as (dims, strides, offset) | induction on permutation (mixed radix) |
| C09 | `isContiguous` | counting/mixed radix argument |
| C10 | `checkIndices` over Z | equivalence |
| C11 | `sliceHelpers` as recursive traversals | induction on rank |
| C12 | `resizeDefaultDimension` on cells | block-matrix reading of the buffer, loop invariants |
| C13 | N-D `Array` state (dims, strides, buffer) | invariant over histories |
| C14-C18 | `sortedArrayManipulation` on cells | loop invariants; spec = sorted list as set |
| C19 | `SortedArray` | refinement over histories |
| C20, C21 | `introsortLoop`, `insertionSort` over array interface, range stack of 32 | partition invariants, sortedness, permutation; witness by computation |
| C22-C26 | `ArrayOfArrays(View)` with its three buffers | refinement over histories |
| C27 | `emplaceBackAtomic` as fetch-add + construct steps | invariant over interleavings |
| C28-C29 | `ArrayOfSets(View)` | refinement over histories |
| C30, C31 | `SparsityPattern(View)` | refinement, pigeonhole; witness |
| C32, C33, C36 | `CRSMatrix(View)` with callbacks on the entries buffer | refinement to finite maps |
| C34 | interleavings of atomic adds | commutation |
| C35 | members of the views as programs of cell accesses | weakest preconditions with footprints (cells read, cells owned), simulation of the sequential model, invariant over interleavings |
| C37-C39 | copy/move constructors and assignments | direct + witnesses |
| C40 | `ChaiBuffer` + array manager record (copies, last touch) | refinement over histories to arrays with spaces, then to plain arrays |
| C41 | integer types as (width, signedness), wrap-around cast | case analysis over types |
| C42 | `convertSize` | arithmetic |
| C43 | `memcpy` | direct + witness |
| C44, C45 | printer and parser on character lists | induction on rank; witness |
| C46-C50 | `tensorOps` over an abstract ring/field | `ring`/`field`, induction on sizes |
| C53 | `resizeArray` with an rvalue default | direct + witness |
| C51 | `isValidPermutation` | pigeonhole |
| C52 | `calculateSize` formatting as digits | arithmetic |
| C54 | `emplace` with a reference to an own element | case analysis on capacity |
| C55 | `setCapacity` of Array | direct |
| C56 | capacities of ArrayOfArrays | refinement over histories to numbers |
| C57 | `SparsityPattern::resize` to fewer columns | witness |
| C58 | symmetric eigenvalues and eigenvectors over the real numbers | real analysis, characteristic polynomial |
| C59, C60 | norms, elementwise `tensorOps` | loop invariants |
| C61 | extent checks of all `tensorOps` | evaluation of the checks |
| C62 | index arithmetic in a machine integer type | refinement to the unbounded model, exact bounds |
| C63 | signal, floating point exception and error handlers | induction over the lists, structural induction over code |
| C64 | arrays of arrays in two memory spaces: `ChaiBuffer::moveNested` | refinement to lists of lists; the inner handles of both blocks in the invariant |
| C65 | own elements as arguments: `ArrayOfArrays` and `Array::insert` | the model reads a slot when the value is constructed; equality with the call on copies where nothing is shifted, exact outcome elsewhere |
| C66 | reference counts of Python objects: `PyObjectRef` and the functions around it | invariant: count = number of references; acyclic ownership for the release theorem |
| C67 | `pylvarray.ArrayOfArrays` | refinement of the methods to a list of lists on top of C22 |
| C68 | `pylvarray.SortedArray`, `pylvarray.ArrayOfSets` | refinement of the methods to increasing lists on top of C19 and C28 |
| C69 | `pylvarray.CRSMatrix` | refinement of the methods to lists of rows with increasing columns on top of C32 and C33 |
| C70 | values of N-dimensional arrays over all histories | refinement to lists of values in memory order; enumeration of the indices by induction over the permutation |
| C71 | resizing without initialisation | the same with unknown values |
| C72 | Python `Array` and NumPy arrays on its memory | refinement of programs to a grid of values with views, on top of C70; access levels by induction over programs |
| C73 | own elements as arguments: `SortedArray` and `ArrayOfSets` | the model reads a slot when the code does; equality with the call on copies by following the slots through every shift, exact outcome for a new block, witnesses elsewhere |
| C74 | containers of several buffers in two memory spaces, ArrayOfArrays in particular | simulation of the buffers by their contents, a place and marks (over C40); protocol as a condition on programs; refinement to vectors of vectors (over C22, C56); witnesses outside the protocol |
| C75 | INDEX_TYPE arithmetic of ArrayOfArrays | simulation "same outcome or overflow" for all states; each member equal to its unbounded version or overflowing, on states described by rows (over C22); bound for programs that only add elements; every number left behind by a program that ends normally is representable (Hoare rules on all states) |
| C76 | exceptions leaving the methods of Array | budget of throwing operations threaded through the methods, three-way specification (result, exception with the state left, fault); induction over loops and over programs that catch |
| C77 | comparison macros | macro table, expansion by substitution, precedence parser proved exact against the operator grammar; every typed reading of the message locates the operands |
| C78 | printed text | loops of output.hpp produce the specified text; the texts parse uniquely (tokens end at the first delimiter), so equal texts mean equal contents |
| C79 | own columns and entries as arguments of CRSMatrix | event by event the slot named still holds the value named when it is read, so the call equals the call with a copy; else the block moved (dangling) or the witness of C79_refuted |
| C80 | INDEX_TYPE arithmetic of ArrayOfSets, SparsityPattern and CRSMatrix | simulation "same outcome or overflow"; invariant "at most N rows of capacity at most Q" kept by every call (over C28, C30, C32); full rows overflow, rows with the capacity reserved do not; every number left behind is representable |
| C81 | consistencyCheck, and assimilate of arrays which are not as described | each row's check equals isSortedUnique; removeDuplicates on arbitrary arrays keeps the new maxima; over the row description of C22 |
| C82 | exceptions leaving the methods of ArrayOfArrays | as C76, over the row layout of C22 with one damaged row; simulation with the calls without exceptions for arbitrary objects; induction over programs that catch |
| C83 | exceptions leaving the methods of SortedArray | induction over the insertion loops with a description of the torn range for arbitrary callbacks; contents identified with the set of C19 by uniqueness of increasing lists |
| C84 | exceptions leaving the methods of ArrayOfSets | the torn range of C83 placed in the row of C82; simulation with the model without exceptions; induction over the program |
| C85 | exceptions leaving the methods of CRSMatrix | torn pair of ranges (columns whole, entries with a gap) in a row; loops by induction on the budget; simulation with the model without exceptions; induction over the program |
| C86 | capacity() of ArrayOfArrays and ArrayOfSets | partial-correctness triples for the lengths of the two integer buffers, method by method; arithmetic on the numeric specification; counterexample for every initial size |
| C87 | assertions of a debug build in Array and ArrayOfArrays | simulation between the functions with and without assertions, for every state (`DebugAdds`) and on normal ends (`DebugProofs`, `DebugProofs2`); the representation invariants of C01 and C22 where an assertion needs them |
| C88 | SortedArray in a debug build: a set or an abort | the invariant of C19 for the outer state; frame lemmas (which slots the shifts leave alone) show that every sub-range handed to `find` is still sorted (`DebugSortedProofs`) |
| C89 | Adding to a matrix row in a debug build | the invariant of C33; induction over the columns: everything before `curPos` is smaller than the next column, so the search in the rest of the row is the search in the row (`DebugCRSProofs`) |
| C90 | ArrayOfSets in a debug build: sets or an abort | the row description of C28; the generic lemmas of C88 for `insert` and `remove` with the callbacks of the container; assimilate row by row (`DebugSetsProofs`) |
| C91 | SparsityPattern in a debug build: sets of columns or an abort | the row description of C30; the generic lemmas of C88; a row keeps its values under every growth since its capacity is clamped to the number of columns (`DebugSparsityProofs`) |
| C92 | CRSMatrix in a debug build: maps or an abort | the row description of C32; the generic lemmas of C88 with an invariant of the callbacks' state (the buffer of the entries is not empty); C89 for addToRow (`DebugMatrixProofs`) |
| C93 | A failing `std::malloc`: the vector, or the null pointer used | m_capacity kept beside the block; invariant: the block has m_capacity slots, or an allocation failed, the block is null and the array empty; with success the step of C87 (`MallocFailProofs`) |
| C94 | `dualSort` in a debug build: sorted or an abort | the loop of C20 run in step with the asserting one, with the invariant of the stack of ranges (`DebugSortProofs`) |
| C95 | `size(dim)` and `stride(dim)`: exact within range, and what the checks miss | m_dims and m_strides of a slice are pointers into those of the array; induction over the chain of operator[] (`PropDimQuery`) |

## 3. What is modelled, and where

Files are in `rocq/theories`. `X.v` is a model, `XSpec.v` the specification vocabulary (does not mention the model), `XProofs*.v`
the proofs, `Prop*.v` the property theorems with their examples and `Print Assumptions`.

| Model file | Source | Simplifications |
|------------|--------|-----------------|
| `Base`, `Mem` | `Macros.hpp`; object lifetimes | see section 1 |
| `ArrayManip` | `arrayManipulation.hpp` | sizes and positions non-negative below the API |
| `BufferManip` | `bufferManipulation.hpp`, `MallocBuffer.hpp`, `StackBuffer.hpp` | host memory space; allocation never fails |
| `Indexing` | `indexing.hpp`, `sliceHelpers.hpp`, indexing in `ArraySlice.hpp`, `ArrayView.hpp` | extents and strides are `nat`, indices are `Z` |
| `MachineIndex` | the arithmetic of `indexing.hpp`, of `resizeDefaultDimension`, `dynamicReserve`, `find`, and the byte count of `MallocBuffer::reallocate` | signed types at least as wide as int; indices have the type INDEX_TYPE |
| `MachineAoA` | the arithmetic of `ArrayOfArraysView.hpp` and `ArrayOfArrays.hpp` in INDEX_TYPE | as `AoA`; signed types at least as wide as int; loop counters are bounded by checked limits; no `setEqualTo` |
| `MachineSets` | the arithmetic of `ArrayOfSets`, `SparsityPattern`, `CRSMatrix` and their views in INDEX_TYPE | as `MachineAoA`; positions of addToRow not checked; no `assimilate`, views insert no elements |
| `Consistency` | `ArrayOfSetsView::consistencyCheck`, the last lines of `ArrayOfSets::assimilate` | whether ARRAY_BOUNDS_CHECK is defined is a parameter |
| `Throw` | `Array.hpp` methods, `bufferManipulation.hpp` and `arrayManipulation.hpp` under them, when an element operation or the error handler throws | copies from arguments and assignments may throw, moves and destructors not; allocation does not fail; not the GPU and `forValuesInSlice` paths |
| `ThrowAoA` | the methods of `ArrayOfArrays` and the view methods behind them, `setEqualTo` and the copy constructor, with throwing elements and error handlers | moves, destructors and allocation do not throw |
| `ThrowSorted` | `insert` of `sortedArrayManipulation.hpp`, the methods, assignment and copy constructor of `SortedArray`, with throwing elements | moves, destructors, comparisons and allocation do not throw |
| `ThrowSets` | `insertIntoSetImpl` (both), the methods of `ArrayOfSets` and the insertions of `ArrayOfSetsView`, with throwing elements | as `ThrowSorted`; the copy is that of `ThrowAoA` |
| `ThrowCRS` | `insertNonZero(s)`, `setValues`, `addToRow` and its three searches, the callbacks, with throwing entries | as `ThrowSets`; columns do not throw; a failed assignment or `+=` leaves its target as it was |
| `AoACapacity` | `ArrayOfArraysView::capacity` with its debug assertion | all other `LVARRAY_ASSERT`s are not modelled here |
| `Debug` | `arrayManipulation.hpp`, `bufferManipulation.hpp`, the mutators and destructors of `Array` and `ArrayOfArrays` with `LVARRAY_ASSERT` | assertions that a number is not negative (the model has natural numbers there); the assertions of sorted arrays, ArrayOfSets and CRSMatrix; a pointer is null iff its MallocBuffer has capacity zero and the offset is zero |
| `DebugSorted` | `find`, `contains`, `insert`, `remove` of `sortedArrayManipulation.hpp` and the mutators of `SortedArray` with `LVARRAY_ASSERT` | `removeDuplicates` (in `DebugSets`); an assertion about a range reads all values first, the source stops at the first bad pair |
| `DebugCRS` | `addToRow`, `addToRowBinarySearch`, `addToRowLinearSearch`, `addToRowBinarySearchUnsorted` of `CRSMatrixView.hpp` with `LVARRAY_ASSERT` | as `DebugSorted`; the atomic additions are sequential here (C34 has the concurrent model) |
| `DebugSets` | the mutators of `ArrayOfSets`, `contains`, `assimilate` and `removeDuplicates` with `LVARRAY_ASSERT` | as `DebugSorted` |
| `DebugSparsity` | the mutators of `SparsityPattern` and `SparsityPatternView` and `empty` with `LVARRAY_ASSERT` | as `DebugSorted`; `assimilate` |
| `DebugMatrix` | the mutators of `CRSMatrix` and `CRSMatrixView`, the notifications which move the entries, `assimilate` and the destructor with `LVARRAY_ASSERT` | as `DebugSparsity`; references into the own entries (`CRSOwn`) |
| `MallocFail` | `MallocBuffer::reallocate` with a `std::malloc` that may fail, bufferManipulation over it the calls of the one dimensional `Array` and `resize( n )` of any array, with and without `LVARRAY_ASSERT` | the other containers over such a buffer; `malloc( 0 )` is never called by these calls |
| `DebugSort` | `introsortLoop`, `dualSort` and the device branch of `makeSorted` with `LVARRAY_ASSERT` | the assertion of `DualIterator::operator-` is true by construction: an iterator is one distance from both starts |
| `DimQuery` | `size( dim )` of `ArrayView`, `size( dim )` and `stride( dim )` of `ArraySlice` with their checks | slices made from other pointers than those of an array |
| `Macros` | `Macros.hpp` ERROR_IF, THROW_IF, ASSERT and the comparison macros built on them | host variant; tokens, substitution, stringizing; C++ binary operators with precedence; types number, string literal, std::ostream; integers unbounded; stack trace and location not shown |
| `Print` | `output.hpp` SortedArray, ArrayOfArrays, CRSMatrix, print, C arrays | printers of elements are parameters; std::endl is a newline; state of the stream left out |
| `CRSOwn` | `CRSMatrix.hpp` 378-404, 508-609, `CRSMatrixView.hpp` 278-330, 579-706 with arguments inside the matrix | addresses of slots, read at every dereference; restrict left out |
| `Array` | `Array.hpp`, `ArrayView.hpp` | |
| `Sorted` | `sortedArrayManipulation.hpp` (find, insert, remove, unique, callbacks) | `std::sort` is any sorted permutation (premise) |
| `Introsort` | `sortedArrayManipulationHelpers.hpp`, `dualSort`, `makeSorted` | comparison is an arbitrary boolean function |
| `SortedArray` | `SortedArray.hpp`, `SortedArrayView.hpp` | |
| `AoA` | `ArrayOfArraysView.hpp`, `ArrayOfArrays.hpp` | RAJA scans by their meaning; one further buffer (the only pack the library uses) |
| `AoS` | `ArrayOfSetsView.hpp`, `ArrayOfSets.hpp` | |
| `Sparsity` | `SparsityPatternView.hpp`, `SparsityPattern.hpp` | columns are `Z`, `cmax` the largest of COL_TYPE |
| `CRS` | `CRSMatrixView.hpp`, `CRSMatrix.hpp` | entries are passed by value; RAJA kernels run the rows in order |
| `Conc`, `Atomic`, `AtomicAdd` | `emplaceBackAtomic`, `addToRow*` with an atomic policy | sequentially consistent memory, RAJA atomics are atomic |
| `Prog`, `ViewProg`, `RowCalls` | the members of `ArrayOfArraysView`, `ArrayOfSetsView`, `SparsityPatternView`, `CRSMatrixView` which modify one row, as programs of single cell accesses | each access to a cell is one step; looking whether a cell holds an object counts as a read; sequentially consistent memory (the programs are proved free of data races) |
| `Integers`, `TypeManip` | `limits.hpp`, parts of `typeManipulation.hpp` and `ArrayView.hpp` | an integer type is a width and a signedness |
| `Memcpy` | `memcpy.hpp` | host memory |
| `SizeText` | `system.cpp` calculateSize, `ChaiBuffer::setName` padding | the conversion from size_t to double and its printing are a parameter |
| `Values`, `CopyMove` | copy/move constructors and assignments of `Array`, `SortedArray` | one handle per object (its buffers are always reset together); a null pointer is capacity 0 |
| `AoACopy`, `AoAValues` | `setEqualTo`, copy/move of `ArrayOfArrays` and everything derived from it | LVARRAY_RESTRICT is ignored in self assignment |
| `OwnRange` | `emplaceBack`, `appendToArray`, `emplace`, `insertIntoArray`, `appendArray`, `insertArray` and `Array::insert` with references to own elements | the argument is a slot, read when the new value is constructed; LVARRAY_RESTRICT is ignored |
| `SortedOwn` | `insert` and `remove` of `sortedArrayManipulation.hpp:471-758`, `SortedArray` and `ArrayOfSets` with references to own elements | the arguments are slots, read when the code reads them; a new block for the values is a fault at `incrementSize`, the values being read after it |
| `Tensor` | `genericTensorOps.hpp` | one element type with uninterpreted operators; LVARRAY_RESTRICT appears as the premise that operands are apart |
| `PyRef` | `python/pythonHelpers.hpp` `PyObjectRef`; `callPyFunc`, `PythonFunction::operator()`, `addTypeToModule`, `addPyLvArrayModule`, the tuples of `createCupyArrayImpl`, `toSciPy`, `internal::create` as far as references go | the Python API by its documented ownership rules (new, stolen, borrowed references); no `__del__`, cycle collector, immortal objects; Python code called does not keep its arguments |
| `PyBase`, `PyArrays` | `python/PyArrayOfArrays.*`, `numpyHelpers.cpp` `parseNumPyArray`, `getNumPyType`, `getTypeIndexFromNumPy` | the interpreter's part (index conversion, negative indices, iteration by `sq_item`) and NumPy's (conversion to an array, `PyArray_CanCastSafely` and `PyArray_Cast` as the parameters `safe` and `conv`) by their documented behaviour; a view is the row's values when it is made, views kept over a reallocation are not modelled; only trivially copyable values are exported |
| `PySets` | `python/PySortedArray.*`, `python/PyArrayOfSets.*` | as `PyArrays`; `host` and `imax` (largest index) are parameters; that a result together with a pending exception becomes SystemError is CPython's documented behaviour |
| `PyCRS` | `python/PyCRSMatrix.*` | as `PySets`; writing through the data of `to_scipy`, own entries as arguments and the conversion of the number of values to the index type are not modelled; NumPy called while an exception is set is taken to fail |
| `PyArray` | `python/PyArray.cpp`, `PyArray.hpp`, `numpyHelpers.cpp:105-155` `createNumpyArrayImpl` | a NumPy array is address, extents, byte strides and the flag WRITEABLE; reading and writing an element and taking a part with integers; blocks of memory are numbered, a number changes when the buffer is reallocated; an array of NumPy without memory has no elements; `repr`, `dtype`, arrays of `std::string` left out |
| `Uninit` | `Array.hpp:340-384` resizeWithoutInitializationOrDestruction | host memory; moving an unknown value of a trivial type is taken to be allowed |
| `Handlers` | `system.cpp` setSignalHandling, resetSignalHandling, error handler; `FloatingPointExceptionGuard` | signal(), feenableexcept, fedisableexcept by their documented meaning; not OSX |
| `Text` | `input.hpp`, slice and view printing of `output.hpp` | characters are 8-bit `ascii`; `operator<<` of the element is a function to text, `operator>>` a function on the next word; signed integers and strings are given concretely (default format flags, C locale) |
| `Chai` | `ChaiBuffer.hpp` (CUDA build): constructors, assignments, `reallocate`, `free`, `move`, `registerTouch`, `operator[]` | trivially copyable values; `setName`, allocators and the user callback are not modelled; `chai::ArrayManager` (allocate, free, move) is assumed as written in the file |
| `Spaces` | capture by value, `move` and `registerTouch` of containers with several `ChaiBuffer`s: `ArrayOfArraysView.hpp:568-590`, `CRSMatrixView.hpp:539-543`, `SortedArrayView.hpp:273-279` | a host method or kernel is a function of members and contents; it reads and writes all buffers at once; one reallocation per method and buffer |
| `SpacesAoA` | `ArrayOfArrays` over `Spaces`: methods as in `AoA`, the calls to `registerTouch`, kernels with `toView`, `toViewConstSizes`, `toViewConst` | values trivially copyable; undefined slots of either kind are one kind; kernels are sequences of calls |
| `Nested` | `ChaiBuffer::moveNested`, `moveInnerData`, the copy constructor with a size; `ArrayView::move`, `Array::emplace_back` and reallocation of inner arrays | two levels and two spaces; values of the outer buffer are the handles of the inner arrays; dimensions are left out; const outer arrays are not modelled |
| `Forward` | `arrayManipulation::resize`, `ArrayOfArrays::resizeArray` with forwarded arguments | the arguments are one T; what a constructor leaves in its argument is a function on values |
| `TensorFixed` | `fixedSizeSquareMatrixOpsImpl.hpp` except eigenvalues | same |
| `Eigen` | `fixedSizeSquareMatrixOpsImpl.hpp` eigenvalues and eigenvectors of symmetric matrices | element type with the functions of `math.hpp` as a record (`floating`); the theorems take the real numbers (`EigenReal`), with `None` for results without a value; `epsilon` is a parameter in [0, 1], the literal squareRootThree is the root, nothing is rounded; the matrix has the element type of the results |

## 4. Not modelled

C++ template overload resolution, exceptions in classes other than Array (C76), ArrayOfArrays (C82), SortedArray (C83), ArrayOfSets (C84) and CRSMatrix (C85, without copies and assimilate), allocation failure, GPU execution itself, RAJA
(its scans, sorts and atomics are specified by their documented meaning), `std::sort`, the bits and the rounding of floating point numbers (C58 is about exact real arithmetic), the `__half` functions of `math.hpp`, machine
overflow of the arithmetic in `assimilate` and `setEqualTo` (C62 covers `Array`, `find` and the buffers, C75 `ArrayOfArrays`, C80 the containers of sets), TotalView output, the Python bindings apart from their reference counts (C66), `ArrayOfArrays` (C67), `SortedArray` and `ArrayOfSets` (C68), `CRSMatrix` (C69), `Array` (C72), setFPE, `umpireInterface`,
`limits.hpp` beyond `integerConversion`, the stack trace and demangling functions of `system.cpp`.

## 5. Trusted base

* Coq's kernel (8.16.1).
* What `Print Assumptions` prints under each property theorem: **"Closed under the global context"** for every theorem of the manifest
  (no axiom at all), except those listed in section 6.
* The reading of the C++ that the comments of the model document, with the simplifications of section 3.
* The behaviour of `chai::ArrayManager` (allocate, free, move) as written in `Chai.v`, for C40 only.
* Premises that stand for external code are visible in the theorems: the sort function given to `makeSorted` returns a sorted
  permutation; orders given as `less` are strict weak or total orders as stated; arithmetic given as `arith` obeys
  `ring_theory` or `field_theory` where stated.

## 6. Assumptions of the theorems

`Print Assumptions` lists nothing for all theorems in `MANIFEST.json` except those of C58, which are about the real numbers of the standard
library. It lists for each of these: `ClassicalDedekindReals.sig_not_dec`, `ClassicalDedekindReals.sig_forall_dec`,
`FunctionalExtensionality.functional_extensionality_dep` and `Classical_Prop.classic`. `coqchk` additionally reports axioms of `Coq.ssr.ssrunder`, which
belong to a library file that `ring`/`lia` load, and the constants of `Coq.Reals.Rdefinitions` that the library hides behind module
signatures (`RbaseSymbolsImpl`, `RinvImpl`); these are defined, not assumed, and no theorem depends on the former.

## 7. What the model says about the code

Behaviour that differs from what a reader of the documentation would expect. Each is a theorem about the model.

* **Copy assignment of arrays of arrays** (C38): `setEqualTo` overwrites the offsets before it destroys the old values and then uses the
  new offsets with the old number of arrays. It is correct exactly in the cases stated by the C38 theorems; otherwise it destroys or
  leaks the wrong values. Self assignment destroys the values first.
* **Moves leak** (C39): move assignment of `Array` and `SortedArray` does not free the block of the destination; self move empties and
  leaks. A moved-from `ArrayOfArrays` has a null offsets buffer.
* **References to own elements** (C04, C54): `emplace_back(a[i])` is safe only while no reallocation and no shift happens before the read.
* **Out-of-range columns** (C31, C57): inserting a column that is out of range into a full row writes past the row, and shrinking the
  number of columns makes later valid insertions do the same.
* **`emplaceBackAtomic`** (C27) increments the size before it checks the capacity; `AoAView::appendToArray` writes before the check.
* **Views and threads** (C35): threads which modify different rows through views do not interfere; on the same row values are lost.
* **`dualSort`** (C21): the stack of pending ranges has 32 entries and nothing bounds the number of pending ranges but the shape of
  the data.
* **`integerConversion`** (C41) has two pairs of types for which it is not value preserving.
* **`calculateSize`** (C52) cuts off the text for sizes from 10000 GB on.
* **`isContiguous`** (C09) is sound but conservative.
* **`memcpy`** (C43) accepts arrays of different extents when unit extents hide the difference.
* **`stringToArray`** (C44, C45): a brace below the innermost dimension, as in `{1,{2}}` for rank 1, indexes past the bookkeeping arrays
  before it is noticed. `{1-5,}` is accepted for integers (the last word holds two numbers). Printed arrays of rank 2 and more with a
  zero extent are rejected or lose their other extents.
* **In place `invert<3>`** does not check the sizes of its argument (every other operation does).
* **`ChaiBuffer::move`** (C40): with more than two spaces a move that does not touch, followed by a move to a third space, leaves stale or
  uninitialised memory there, because only the touch of the last space is looked at. `registerTouch(space)` for a space other than the
  current one loses the values of the current one; `bufferManipulation::resize` touches the host without a move.
* **`resizeArray` with an rvalue** (C53): the argument is forwarded to the constructor of every new element, so that the first one consumes it.
* **`symEigenvectors<3>`** (C58) treats eigenvalues that differ by at most 2 * epsilon * (largest - smallest) as equal; the rows which belong
  to them are then orthonormal but in general not eigenvectors. Their residual is at most the distance of the two eigenvalues.
* **Machine integers** (C62): the strides and the size of an array without elements can overflow (extents 0, 2^31 - 1, 2 with a 32-bit
  INDEX_TYPE). `MallocBuffer::reallocate` neither checks `newCapacity * sizeof(T)` for wrap-around nor the result of `malloc`: reserving
  2^61 doubles asks for no bytes and succeeds.
* **Signal handlers** (C63): `setSignalHandling` stores what it replaces on every call, so that after two calls `resetSignalHandling`
  installs the first handler and not the original one (`stackTraceHandler` makes such a second call). On the branch that lists both
  SIGABRT and SIGIOT, which are the same number, SIGABRT is never brought back.
* **`FloatingPointExceptionGuard`** (C63) does not disable again what its block enables.
* **`ChaiBuffer::moveNested`** (C64): the inner arrays are moved only if the space of the outer array changes. `move( GPU, false )`
  followed by `move( GPU, true )` touches the outer buffer alone, so that inner values written on the device are lost by the next
  move to the host; without nesting the same calls are correct.
* **`ChaiBuffer::moveNested`** (C64) goes through `m_pointer` on the host if the array was last on the host. A view moved to the
  device earlier still holds its device pointer, after the array was moved back through another handle; moving the view again makes
  host code follow it.
* **Inner arrays** (C64) which grow on the host while the outer array is not touched there leave their old handle in the device block.
* **Own elements as arguments** (C65): `a.emplaceBack( i, a( k, l ) )` with `i < k`, inner array `i` full and `m_values` large enough
  silently appends the element which was shifted to the old address of `a( k, l )`. `insertArray( i, first, last )` of elements of
  inner arrays from `i` on and `Array::insert` of a range behind the position are wrong in the same way, and all of them read freed
  memory when the values are reallocated. The capacity alone decides which of these happens.
* **`PyObjectRef` assignments** (C66) from another `PyObjectRef` overwrite the pointer without giving up the object held before: it
  is never deallocated. Self-move assignment loses the object, too.
* **`addPyLvArrayModule`** (C66) passes its reference to `PyModule_AddObject`, which takes it over, and gives it up a second time in the
  destructor. `createCupyArrayImpl` does the same with every entry of its two tuples (the function is unreachable at present).
* **`PyCRSMatrix.to_scipy`** (C66) never gives up the three NumPy arrays it makes; `internal::create` loses the new wrapper if there is no
  NumPy type for the values.
* **`pylvarray.ArrayOfArrays()`** (C67) makes an object without an array. `insert`, `insert_into`, `erase_from` and `del` do not use
  `VERIFY_INITIALIZED` and dereference its null pointer.
* **Own elements of sets as arguments** (C73): `a.insertIntoSet( i, a( k, l ) )` with `i < k` and set `i` full inserts whatever moved to the old address of the element when
  `m_values` keeps its block (`C73_shifted_refuted`), and reads freed memory when it does not (`C73_moved`). Removal with own elements and every call of `SortedArray` is right.
* **Offsets left behind on the device** (C74): `setCapacityOfArray` touches `m_offsets` on the host because views made with `toView()` do not
  (comment at `ArrayOfArraysView.hpp:937-941`). `compress`, `resizeFromCapacities`, `appendArray( 0 )`, `appendArray`/`insertArray` of an empty range and `eraseArray` of an array
  without capacity change `m_offsets` in place and do not touch them. Called after a device kernel and a host kernel with `toView()`, without `move( host )`, they leave the
  device with the old offsets (`C74_compress_refuted`, `C74_unmarked_refuted`): it reads old places, or out of bounds.
* **Half the index range** (C75): `dynamicallyGrowArray` asks for `2 * newArraySize`, so `appendArray( first, last )`, `appendToArray`, `insertArray` and `insertIntoArray` overflow INDEX_TYPE
  for rows of more than half of its range (2^30 elements with `int`) although the elements could be counted (`C75_half_refuted`). No sum of offsets is checked.
* **Exceptions** (C76): `Array` stores extents and strides before it builds elements (`Array.hpp:293-312, 319-338, 392-414, 590-680`), so an element constructor throwing inside any growing
  resize leaves an array whose destructor destroys slots that hold no object; the same for `Array( dims... )`, whose body runs after a delegated constructor. The copy constructor forgets the
  objects built so far. `emplace` in the middle and `insert` open a gap which is not closed. With an error handler that throws (`setErrorHandler` invites it), `resize( 3, -1 )` leaves the
  negative extent in place and loses the elements, and `resize` of a `StackBuffer` array beyond its length leaves `size()` larger than the buffer.
* **`LVARRAY_ERROR_IF_LE` and `LVARRAY_THROW_IF_LE`** (C77, `Macros.hpp:449, 457`) expand to the GE macros: they report for lhs >= rhs (`C77_LE_refuted`). Neither is used in the repository.
  Operands are not parenthesised and are evaluated again for the message; an operand `a << b` is tested correctly but shown as `a` followed by `b`.
* **print of a CRSMatrix** (C78, `output.hpp:213-256`, meant for comparing outputs): the offsets show the capacities of the rows, so equal matrices print differently unless compressed (`C78_print_refuted`). The line in front of each row holds the number of its non-zeros.
* **Own entries in a CRSMatrix** (C79): `m.insertNonZero( i, c, m.getEntries( i )[ l ] )` inserts entry `l - 1` if column `c` belongs in front of entry `l - 1` (`C79_shifted`); copying a row into one in front of it which has to grow reads the row where it was before and leaves the columns unsorted (`C79_refuted`).
* **Doubling before clamping** (C80): `dynamicallyGrowRow` computes twice the new number of non-zeros in INDEX_TYPE and only then cuts it down to the number of columns, so inserting into a full row overflows from half the index range on although the capacity asked for would fit (`C80_columns_in_range_refuted`); a row which has the capacity already needs no room for twice its size (`C80_reserved_row_in_range`), so `reserveNonZeros( row, numColumns() )` avoids it.
* **A check which is never compiled** (C81): `ArrayOfSets::assimilate` ends with `#ifdef ARRAY_BOUNDS_CHECK consistencyCheck()`, but the macro of the library is `LVARRAY_BOUNDS_CHECK`; nothing defines `ARRAY_BOUNDS_CHECK`. So arrays that are not what their description says are taken over silently, and the container then does not find values it holds and inserts them again (`C81_untruthful_refuted`). Even compiled, the check could not notice unsorted arrays called SORTED_WITH_DUPLICATES, of which values are lost (`C81_check_misses_lost_values_refuted`); only the assert of debug builds does.
* **Exceptions in ArrayOfArrays** (C82): sizes are stored after the elements are built, so `emplaceBack`, `resizeArray` and `appendToArray` are safer than their `Array` counterparts: nothing is lost when the first construction throws, later ones leak. `appendArray` and `insertArray` leave an additional empty array. `emplace` and `insertIntoArray` before the end leave a gap which the destructor destroys. Copy assignment (`ArrayOfArraysView.hpp:829-865`) stores offsets, sizes and the number of arrays before it copies, so any exception makes the destructor destroy places that hold no object (`C82_copy_refuted`). The copy constructor (`ArrayOfArrays.hpp:67-70`) does not delegate, unlike `Array`'s: no destructor runs, and objects and allocations are lost (`C82_copy_constructor_refuted`). The view's `appendToArray` checks the capacity after writing, so a handler that throws comes too late for the neighbouring array (`C82_view_append_refuted`).
* **Exceptions in SortedArray** (C83): copy assignment (`SortedArray.hpp:100-106`) assigns element by element, so an exception between arrays of the same size leaves a mixture which is not sorted; `contains` then denies a value the array shows, and `insert` adds it again (`C83_copy_refuted`). From a shorter array the destructor afterwards destroys places without objects, from a longer one objects are forgotten. `insert` opens the gap before it copies the value, so an exception is harmless only if the value belongs at the end. The copy constructor (76-79) does not delegate and loses its allocation (`C83_copy_constructor_refuted`).
* **Exceptions in ArrayOfSets** (C84): the size of the set is written after all values have been built (`ArrayOfSetsView.hpp:364-407`), so an exception shows the old size over a row with a gap, or forgets what was built behind the old end. Copying (`ArrayOfSets.hpp:68-106`) sets offsets and sizes before the elements exist, so it never survives an exception (`C84_copy_refuted`).
* **Exceptions in CRSMatrix** (C85): the column of a new non-zero is written before its entry is built (`CRSMatrix.hpp:552-596`, `CRSMatrixView.hpp:624-691`) and the size of the row is written last, so after an exception the row shows its old size with the new column at its position and no entry there, and the destructor destroys an entry that does not exist.
* **capacity() of ArrayOfArrays** (C86): m_offsets and m_sizes are grown separately (`ArrayOfArrays.hpp:273-274, 290-291, 308-312`), each to twice the size it needs, so they double at different moments. After n0 + 3 calls of appendArray m_sizes has more slots than m_offsets: the assertion in `ArrayOfArraysView.hpp:372` fails, and without it capacity() promises 2 n0 + 3 more arrays when not even one fits.
* **Inserting nothing in a debug build** (C87): `arrayManipulation::insert` asserts `ptr != nullptr` unconditionally (`arrayManipulation.hpp:508`), unlike `append`, which allows it for an empty range. So `a.insert( 0, first, first )` on an array which never had capacity, and `insertIntoArray( i, 0, first, first )` while valueCapacity() is 0, are fine in a release build and abort in a debug build. All other assertions hold in all valid histories.
* **Unsorted ranges** (C88): a debug build finds every range argument of `SortedArray::insert` and `remove` that is not sorted and unique; a release build silently builds an unsorted array, in which `contains` misses inserted values.
* **An assertion that reads behind the row** (C89): `addToRowLinearSearch` asserts `columns[ curPos ] == cols[ i ]` (line 488) without `nnz > curPos`, which both binary searches assert first. After the last column of the row has been added to, `curPos == nnz`. A missing column is then compared with the next row's first column (and added to that row if equal), with spare room that holds no value, or with memory outside the allocation.
* **Descriptions in a debug build** (C90): of the three descriptions that require something, `assimilate` checks SORTED_WITH_DUPLICATES only. A false SORTED_UNIQUE or UNSORTED_NO_DUPLICATES is found by a later assertion at best; a duplicate survives `removeFromSet`.
* **Columns in a debug build** (C91): `SparsityPattern::insertNonZero(s)` does not check its columns in any build; a full row then overwrites the next one (C31) in a debug build with bounds checks as well.
* **Columns of a matrix in a debug build** (C92): the same for `CRSMatrix::insertNonZero(s)`; the entry of the next row is lost with its column.
* **Failing malloc** (C93): `reserve( n )` on an empty array returns and `capacity()` is `n` with a null pointer; on a non-empty array the values are moved to the null pointer. Only a debug build stops first, and not for `resize( n )` of an inner dimension of an empty array.
* **`size( dim )`** (C95): the checks of `ArrayView::size( dim )` are assertions inside `#ifdef LVARRAY_BOUNDS_CHECK`, so that a release build with bounds checks has none. `ArraySlice::size( dim )` and `stride( dim )` do not check for a negative dimension: `a[ i ].size( -1 )` is `a.size( 0 )`.
* **Own rows from Python** (C67): `a.insert( i, a[ k ] )` and `insert_into` pass the pointer of the view on; see C65 for what happens.
* **Unsorted values from Python** (C68): `SortedArray.insert`, `remove`, `ArrayOfSets.insert_into` and `erase_from` hand the values
  of any array to functions that require sorted unique ones. `s.insert( [ m, v ] )` with `v < m = min( s )` writes before the
  allocation on every non-empty set; in an `ArrayOfSets` it overwrites the neighbouring set.
* **`Array.to_numpy`** (C72) returns memory that the array may free: a NumPy array kept over `resize` or `resize_all`, or over a resize from C++, is read and written after it was freed
  (`C72_moved_refuted`). It stays writeable when the access level is lowered (`C72_revoked_refuted`). With room for the new extents it shows the memory in its old shape.
* **`Array.resize_all`** (C72) does not check for negative extents; they end the process (`C72_resize_all_refuted`). Its documentation says values are discarded; they stay at their places in memory.
* **`createNumpyArrayImpl`** (C72) ends the process for an empty array with one large extent (`C72_huge_refuted`).
* **`ArrayOfSets.erase_from`** (C68) does not check the result of `parseNumPyArray` and returns a value with an exception set.
* **`ArrayOfSets.insert( i, capacity )`** (C68) with a capacity above the index type ends the process instead of raising.
* **`CRSMatrix.add_to_row`** (C69) adds the value for a column that is not in the row to the entry of the next larger column, and
  reads after the columns when there are fewer columns than values; `insert_nonzeros` checks the lengths.
* **`CRSMatrix.insert_nonzeros`** (C69) inserts columns that are negative or not below `num_columns`, and unsorted ones.
* **Access levels** (C69): `set_access_level( -1 )` makes the views of `get_entries` writeable, since the level is converted to bool.
