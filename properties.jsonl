{"id": "C01", "title": "Vector histories are memory safe", "statement": "Run any sequence of Vector operations (default / sized / filled / list / copy / move construction, copy and move assignment including self-assignment, resize, element read and write with an in-range index, destruction) on any set of Vectors, with every allocation succeeding. No operation frees a block twice, frees a foreign pointer, or touches freed or out-of-block memory; at every point each live non-empty Vector owns exactly one live block of exactly its size, no two Vectors own the same block, and no other block is live, so when all Vectors have been destroyed nothing is leaked.", "quantifier": "every finite history of operations over any number of Vectors, every size below the allocation limit", "why_tests_cant": "a leak or double free depends on the interleaving of moves, copies and resizes; tests run a handful of histories", "anchors": ["include/malg/vector.hpp: Vector::Vector", "include/malg/vector.hpp: Vector::~Vector", "include/malg/vector.hpp: Vector::operator=", "include/malg/vector.hpp: Vector::resize", "include/malg/vector.hpp: Vector::allocate", "include/malg/vector.hpp: Vector::deallocate"]}
{"id": "C02", "title": "Vectors have value semantics", "statement": "After any history, each live Vector holds exactly the sequence of values that the same history gives when Vectors are treated as independent mathematical sequences: copies are deep, so writing to one Vector never changes another; a moved-from Vector is the empty sequence and the target has the source's former contents; self copy- and self move-assignment change nothing.", "quantifier": "every finite history of operations over any number of Vectors", "why_tests_cant": "aliasing shows only for particular combinations of copy, move and later writes", "anchors": ["include/malg/vector.hpp: Vector::Vector(const Vector&)", "include/malg/vector.hpp: Vector::Vector(Vector&&)", "include/malg/vector.hpp: Vector::operator=(const Vector&)", "include/malg/vector.hpp: Vector::operator=(Vector&&)", "include/malg/vector.hpp: Vector::operator[]"]}
{"id": "C03", "title": "Vector::resize keeps the common prefix and zero-fills", "statement": "v.resize(n) leaves size() == n, keeps every element at index < min(old size, n), and sets every index in [old size, n) to zero, for growing, shrinking and same-size calls and for n == 0.", "quantifier": "every vector and every new size below the allocation limit", "why_tests_cant": "sizes and contents are unbounded", "anchors": ["include/malg/vector.hpp: Vector::resize", "include/malg/vector.hpp: Vector::allocate"]}
{"id": "C04", "title": "Matrix shape invariant over histories", "statement": "After any sequence of constructions, copy/view assignments, resize, reshape, remove_row, remove_column, swap_rows, swap_cols, element writes and in-place arithmetic on a Matrix, size() == rows()*cols(), exactly that many elements are stored, and every access A(i,j) with i<rows(), j<cols() is inside the storage. A Matrix that was moved from is the exception: it keeps its old rows()/cols() with no storage, so reading it is undefined.", "quantifier": "every finite history of Matrix operations", "why_tests_cant": "the invariant must survive every order of operations", "anchors": ["include/malg/matrix.hpp: Matrix", "include/malg/matrix.hpp: Matrix::resize", "include/malg/matrix.hpp: Matrix::reshape", "include/malg/matrix.hpp: Matrix::operator=", "include/malg/utility.hpp: remove_row", "include/malg/utility.hpp: remove_column"]}
{"id": "C05", "title": "Element access is a row-major bijection", "statement": "For i<rows(), j<cols(): A(i,j), A.at(i,j) and A[i*cols()+j] are the same element; distinct (i,j) are distinct elements; writing A(i,j) changes that element only, leaving shape and all other elements as they were.", "quantifier": "every well-formed matrix, every pair of in-range positions", "why_tests_cant": "index arithmetic must be right for all shapes", "anchors": ["include/malg/matrix.hpp: Matrix::at", "include/malg/matrix.hpp: Matrix::operator()", "include/malg/matrix.hpp: Matrix::operator[]"]}
{"id": "C06", "title": "Matrix construction", "statement": "Matrix(r,c,x) is r x c filled with x. Matrix(r,c,list) and Matrix(r,c,std::vector) place the values in row-major order when the list has at least r*c values, and are undefined with fewer. Matrix({{...}}) has one row per inner list; it throws for no rows or an empty first row, and is undefined if a later row is shorter than the first. Matrix(view) has the shape and elements of the view.", "quantifier": "all shapes below the allocation limit, all lists, all matrix/view sources", "why_tests_cant": "list lengths and shapes are unbounded", "anchors": ["include/malg/matrix.hpp: Matrix::Matrix"]}
{"id": "C07", "title": "Matrix assignment copies shape and contents", "statement": "A = B (B a Matrix or a view that does not refer to A) makes A's shape and elements equal those B had, whatever A held before, and a later change of either does not affect the other; A = A changes nothing. If B.size()==0 the assignment is a no-op that keeps A's old shape and contents (so A = inverse(singular) keeps the stale A), and a move assignment from a non-empty matrix leaves the source unusable.", "quantifier": "every pair of matrices of every shape", "why_tests_cant": "prior contents and shapes of the target are unbounded", "anchors": ["include/malg/matrix.hpp: Matrix::operator="]}
{"id": "C08", "title": "Assigning a matrix from a view of itself", "statement": "A = A(Range,Range) resizes A's storage before reading the view. The result has the view's shape clamped against the new dimensions and reads zero-initialised storage: for a whole-matrix view of a non-empty matrix the result is the all-zero matrix of the same shape, for any view anchored at (0,0) the result is the zero matrix of the view's shape, and for every other non-empty view the assignment reads out of bounds. The documented meaning (the view's former contents) is refuted.", "quantifier": "every non-empty matrix and every prefix view", "why_tests_cant": "holds for every content and shape, and is independent of the values", "anchors": ["include/malg/matrix.hpp: Matrix::operator=(const MatrixBase<T>&)", "include/malg/view.hpp: View::at", "include/malg/view.hpp: View::rows"]}
{"id": "C09", "title": "Matrix::resize keeps the overlap and zero-fills", "statement": "A.resize(r,c) makes A r x c; every element with row < min(old rows,r) and column < min(old cols,c) keeps its value and every other element is zero.", "quantifier": "every matrix and every target shape below the allocation limit", "why_tests_cant": "two code paths (same columns / different columns) and unbounded shapes", "anchors": ["include/malg/matrix.hpp: Matrix::resize", "include/malg/utility.hpp: resize"]}
{"id": "C10", "title": "Matrix::reshape reinterprets row-major order", "statement": "If r*c == A.size(), reshape(r,c) only changes the shape: A[k] is unchanged for every k. Otherwise it throws and A is unchanged. Reshaping back restores A.", "quantifier": "every matrix, every r and c whose product does not overflow size_t", "why_tests_cant": "arbitrary shapes and contents", "anchors": ["include/malg/matrix.hpp: Matrix::reshape", "include/malg/utility.hpp: reshape"]}
{"id": "C11", "title": "size_t overflow in shapes", "statement": "Matrix(r,c,x) and reshape(r,c) do not check that r*c fits size_t. Whenever r*c >= 2^64 and r*c mod 2^64 can be allocated, construction succeeds with r*c mod 2^64 elements while rows() and cols() report r and c, so that size() is not rows()*cols() and some element of the reported shape is undefined; if r*c is a multiple of 2^64 the buffer is empty and every element read is undefined. Likewise a matrix of n elements can be reshaped to any such shape with r*c mod 2^64 == n.", "quantifier": "all r, c with r*c >= 2^64", "why_tests_cant": "needs enormous dimensions that no test allocates", "anchors": ["include/malg/matrix.hpp: Matrix::Matrix(size_t,size_t,const T&)", "include/malg/matrix.hpp: Matrix::reshape", "include/malg/matrix_base.hpp: MatrixBase::size"]}
{"id": "C12", "title": "Views read and write exactly their window", "statement": "For a View of A over rows [r0,r1) and columns [c0,c1) with r0<=rows, c0<=cols: rows()/cols() are min(r1,A.rows())-r0 and min(c1,A.cols())-c0; V(i,j) and V[i*V.cols()+j] are A(r0+i,c0+j); writing V(i,j) changes A(r0+i,c0+j) and nothing else of A. Range::all() gives the whole dimension. utility::view, row and col build the corresponding windows.", "quantifier": "every matrix, every range whose start is within the matrix, every position", "why_tests_cant": "windows and positions are unbounded", "anchors": ["include/malg/view.hpp: View::rows", "include/malg/view.hpp: View::cols", "include/malg/view.hpp: View::at", "include/malg/view.hpp: View::operator[]", "include/malg/view.hpp: Range::all", "include/malg/view.hpp: Matrix::operator()(Range,Range)", "include/malg/utility.hpp: view", "include/malg/utility.hpp: row", "include/malg/utility.hpp: col"]}
{"id": "C13", "title": "Views compose to any depth", "statement": "A view of a view of ... of a matrix (any mix of View and CofactorView over rectangular windows, any depth) reads and writes exactly one element of the root matrix for each in-range position, different positions of the same view reach different root elements, and a write through it changes only that element.", "quantifier": "every nesting depth and every in-range position", "why_tests_cant": "unbounded nesting", "anchors": ["include/malg/view.hpp: View::at", "include/malg/view.hpp: CofactorView::at"]}
{"id": "C14", "title": "A range that starts past the end wraps", "statement": "If a view's row start r0 exceeds A.rows(), rows() wraps around to 2^64-(r0-A.rows()) and reading V(i,j), as long as the index arithmetic itself does not wrap, is undefined rather than an error. If the column start c0 exceeds A.cols(), cols() wraps likewise and V(i,j) silently reads the storage cell (r0+i)*A.cols()+c0+j, i.e. an element of a later row, or is undefined past the end. extract() of one column (row), extract_column() and extract_row() with such a start request an impossible allocation, and so does any extract() whose wrapped size exceeds the limit. No exception is thrown in these cases.", "quantifier": "every matrix and every out-of-range start", "why_tests_cant": "needs every out-of-range value, observable only as undefined behaviour", "anchors": ["include/malg/view.hpp: View::rows", "include/malg/view.hpp: View::cols", "include/malg/utility.hpp: extract", "include/malg/utility.hpp: extract_column"]}
{"id": "C15", "title": "View assignment from a source that does not overlap", "statement": "V = X with X of V's shape and not reading V's window makes every V(i,j) equal X(i,j) and changes nothing outside V's window. The same is guaranteed when X is a view of the same matrix whose window lies at or after V's window in row-major order, position by position (the element-by-element copy never reads an element it has already written).", "quantifier": "every matrix, view and source, including same-matrix sources", "why_tests_cant": "overlap cases are unbounded", "anchors": ["include/malg/view.hpp: View::operator="]}
{"id": "C16", "title": "Overlapping view assignment can corrupt", "statement": "When the source view of the same matrix starts before the destination, element-by-element copying reads elements already overwritten: there is a matrix and pair of equal-shape views where V = W does not give V the former contents of W.", "quantifier": "refutation by witness; complements C15", "why_tests_cant": "shows the limit of C15; a test cannot show the general property is false everywhere it is claimed", "anchors": ["include/malg/view.hpp: View::operator=(const View<MatrixType>&)"]}
{"id": "C17", "title": "View assignment from nested lists", "statement": "V = {{...}} with exactly V.rows() inner lists, each at least V.cols() long and the first exactly V.cols() long, writes list[i][j] to V(i,j) and changes nothing else. If the number of lists is not V.rows(), or the first list's length is not V.cols(), or either is zero, the matrix is unchanged.", "quantifier": "every matrix, view and list of lists", "why_tests_cant": "arbitrary list shapes", "anchors": ["include/malg/view.hpp: View::operator=(initializer_list)"]}
{"id": "C18", "title": "CofactorView is the minor", "statement": "CofactorView(&A,p,q) has shape (rows-1)x(cols-1) and element (i,j) is A(i + [i>=p], j + [j>=q]), i.e. A without row p and column q; writing through it changes only that element of A. Linear access V[k] agrees with row-major order when A is square, but divides by rows() instead of cols(), so for non-square A it is wrong.", "quantifier": "every matrix with at least one row and column, every p,q in range, every position", "why_tests_cant": "arbitrary shapes and excluded positions", "anchors": ["include/malg/view.hpp: CofactorView::at", "include/malg/view.hpp: CofactorView::operator[]"]}
{"id": "C19", "title": "Self-aliasing in-place arithmetic", "statement": "A += A doubles and A -= A zeroes every element, for every matrix or view A; element i is combined with element i of the operand as it was before the statement, also when the operand is a view of the same matrix with the same window.", "quantifier": "every matrix and every view", "why_tests_cant": "aliasing between operands over all shapes", "anchors": ["include/malg/math.hpp: operator+=", "include/malg/math.hpp: operator-="]}
{"id": "C20", "title": "transpose", "statement": "transpose(A) is cols x rows with element (j,i) equal to A(i,j); transposing twice gives back A; transposing a product gives the product of the transposes in reverse order; A may be any matrix or view and is unchanged.", "quantifier": "every matrix or view of every shape", "why_tests_cant": "unbounded shapes", "anchors": ["include/malg/linalg.hpp: transpose"]}
{"id": "C21", "title": "Constant builders", "statement": "zeros(r,c), ones(r,c), eye(r,c,x), identity(n,x) and the vector forms have exactly the documented elements and throw when a dimension is zero; diag(vector) is the square matrix with the vector on its diagonal and zeros elsewhere; diag(matrix) is the main diagonal; diag(diag(v)) == v.", "quantifier": "all dimensions below the allocation limit", "why_tests_cant": "unbounded dimensions", "anchors": ["include/malg/utility.hpp: eye", "include/malg/utility.hpp: identity", "include/malg/utility.hpp: zeros", "include/malg/utility.hpp: ones", "include/malg/utility.hpp: diag"]}
{"id": "C22", "title": "Conversions between vector and matrix", "statement": "to_matrix(v,row) is 1 x n or n x 1 with v's elements; to_vector(A) and ravel(A) list A's elements in row-major order; to_vector(to_matrix(v,_)) == v. ravel of a non-square CofactorView inherits its linear-index defect.", "quantifier": "every vector and matrix/view", "why_tests_cant": "unbounded", "anchors": ["include/malg/utility.hpp: to_matrix", "include/malg/utility.hpp: to_vector", "include/malg/utility.hpp: ravel"]}
{"id": "C23", "title": "vstack, hstack, concatenate", "statement": "vstack(A,B) throws iff column counts differ and otherwise is A above B; hstack(A,B) throws iff row counts differ and otherwise is A beside B; concatenate(a,b) is a followed by b. The vector forms append b as a last row / column.", "quantifier": "every pair of matrices/views or vectors whose result fits", "why_tests_cant": "unbounded shapes", "anchors": ["include/malg/utility.hpp: vstack", "include/malg/utility.hpp: hstack", "include/malg/utility.hpp: concatenate"]}
{"id": "C24", "title": "extract, extract_row, extract_column", "statement": "With starts within the matrix, extract(A,r0,r1,c0,c1) is the copy of the window clamped to A; extract_row / extract_column return the clamped part of one row / column; an out-of-range row or column, or start>=end, throws. Splitting a matrix by extract at any row (column) and vstack (hstack) of the parts gives the matrix back.", "quantifier": "every matrix/view, every range", "why_tests_cant": "unbounded ranges", "anchors": ["include/malg/utility.hpp: extract", "include/malg/utility.hpp: extract_row", "include/malg/utility.hpp: extract_column"]}
{"id": "C25", "title": "swap_rows and swap_cols", "statement": "swap_rows(A,i,j,c0,c1) exchanges A(i,c) and A(j,c) for c in [c0,min(c1,cols)) and changes nothing else; swap_cols likewise; each is its own inverse. A may be a view, in which case elements of the root outside the view do not change.", "quantifier": "every matrix/view, every pair of in-range indices and range", "why_tests_cant": "unbounded", "anchors": ["include/malg/utility.hpp: swap_rows", "include/malg/utility.hpp: swap_cols"]}
{"id": "C26", "title": "remove_row and remove_column", "statement": "remove_row(A,k) throws iff k>=rows() (A unchanged) and otherwise removes exactly row k, keeping the order of the others; remove_column likewise for columns. The cofactor(A,p,q) equals removing row p and column q.", "quantifier": "every matrix, every index", "why_tests_cant": "unbounded", "anchors": ["include/malg/utility.hpp: remove_row", "include/malg/utility.hpp: remove_column"]}
{"id": "C27", "title": "Structure predicates decide their definition", "statement": "is_square, is_row_vector, is_column_vector, is_symmetric, is_diagonal, is_lower_triangular and is_upper_triangular return true exactly when the matrix or view satisfies the textbook definition. is_skew_symmetric compares only off-diagonal pairs: it is true exactly when A is square and A(i,j) == -A(j,i) for i<j, and so accepts matrices with a non-zero diagonal, which are not skew-symmetric.", "quantifier": "every matrix/view", "why_tests_cant": "all shapes and contents", "anchors": ["include/malg/utility.hpp: is_square", "include/malg/utility.hpp: is_symmetric", "include/malg/utility.hpp: is_skew_symmetric", "include/malg/utility.hpp: is_diagonal", "include/malg/utility.hpp: is_lower_triangular", "include/malg/utility.hpp: is_upper_triangular", "include/malg/utility.hpp: is_row_vector", "include/malg/utility.hpp: is_column_vector"]}
{"id": "C28", "title": "linspace", "statement": "linspace(start,stop,n) has n elements; for n>=2 in exact arithmetic over an ordered field the first is start, the last is stop and consecutive differences are all equal to (stop-start)/(n-1), whether increasing or decreasing; for n==1 the element is stop; when start and stop compare equal (approximately, for floating point) all are stop. For integer T the step is truncated, so the last element is stop only if n-1 divides stop-start.", "quantifier": "all start, stop and n", "why_tests_cant": "unbounded n and values", "anchors": ["include/malg/utility.hpp: linspace"]}
{"id": "C29", "title": "flatnonzero and find", "statement": "flatnonzero(A) lists, in increasing order and without repetition, exactly the linear indices of non-zero elements. find(A) returns them as a row for a one-row matrix and as a column otherwise. With 0<n<count, find(A,n) does not return the first n indices: it returns `first` copies of the value first+n, where first is the first non-zero index (and the analogous wrong value for the last n).", "quantifier": "every matrix and every n", "why_tests_cant": "unbounded contents; which n fail depends on the data", "anchors": ["include/malg/utility.hpp: flatnonzero", "include/malg/utility.hpp: find"]}
{"id": "C30", "title": "compare", "statement": "compare(A,B) throws iff sizes differ. Otherwise it returns -i or +i for the first differing linear index i, according to whether A[i] < B[i] or A[i] > B[i], and 0 when no element differs. Hence the result 0 does not mean equal (a difference at index 0 also gives 0), and shapes are not compared. For arguments equal at index 0, compare(A,B)==0 iff all elements are equal, and compare(B,A) == -compare(A,B).", "quantifier": "every pair of matrices/views/vectors over a totally ordered element type", "why_tests_cant": "unbounded contents", "anchors": ["include/malg/utility.hpp: compare"]}
{"id": "C31", "title": "all_close", "statement": "all_close(a,b,tol) throws iff sizes/shapes differ and otherwise is true exactly when no pair of corresponding elements differs by more than tol; it is reflexive for tol>=0, symmetric, and monotone in tol.", "quantifier": "every pair and every tolerance", "why_tests_cant": "unbounded", "anchors": ["include/malg/utility.hpp: all_close"]}
{"id": "C32", "title": "Element-wise matrix and vector arithmetic", "statement": "A+B, A-B (matrices/views), a+b, a-b, a*b (vectors) throw iff shapes differ and otherwise give the element-wise result with the operands' shape; A+s, A-s, A*s, s*A, A/s apply the scalar to each element; +=, -=, *=, /= give the same result in place and change nothing else. No operand of the binary forms changes.", "quantifier": "every pair of matrices/views/vectors of every shape and every scalar", "why_tests_cant": "unbounded shapes", "anchors": ["include/malg/math.hpp: operator+", "include/malg/math.hpp: operator-", "include/malg/math.hpp: operator*", "include/malg/math.hpp: operator/", "include/malg/math.hpp: operator+=", "include/malg/math.hpp: operator-=", "include/malg/math.hpp: operator*=", "include/malg/math.hpp: operator/="]}
{"id": "C33", "title": "Matrix product", "statement": "A*B throws iff A.cols()!=B.rows() and otherwise is the A.rows() x B.cols() matrix of the textbook sums, accumulated left to right starting from zero. Over a commutative ring it is associative, distributes over +, and has identity(n,1) as left and right unit.", "quantifier": "every pair of conformal matrices/views", "why_tests_cant": "unbounded shapes", "anchors": ["include/malg/math.hpp: operator*(MatrixBase,MatrixBase)"]}
{"id": "C34", "title": "In-place matrix product", "statement": "A *= B throws iff A.cols()!=B.rows(). If B is square it leaves A equal to A*B, also when B is A itself or a view of A. If B has fewer columns than rows the shape of A is kept and the remaining columns become zero; if B has more columns than rows the result is not A*B (elements of different rows are mixed, and the last row is written out of bounds).", "quantifier": "every A and B, aliased or not", "why_tests_cant": "unbounded shapes and aliasing", "anchors": ["include/malg/math.hpp: operator*=(MatrixBase,MatrixBase)"]}
{"id": "C35", "title": "Matrix-vector product and dot", "statement": "dot(a,b) throws iff sizes differ and otherwise is the sum of products. A*b and dot(A,b) with b.size()>=A.cols() give sum_c A(r,c)*b[c] for each row; they do not check sizes: for b.size()<A.cols() (and A with at least one row) the access is out of bounds. For matching sizes A*b equals A times the column matrix of b.", "quantifier": "every matrix/view and vectors", "why_tests_cant": "unbounded", "anchors": ["include/malg/math.hpp: operator*(MatrixBase,Vector)", "include/malg/math.hpp: dot"]}
{"id": "C36", "title": "Comparison operators are element-wise", "statement": "==, !=, <, <=, >, >= on matrices/vectors/scalars throw iff shapes differ and otherwise give the bool matrix/vector of element comparisons; != is the element-wise negation of ==; A<B is B>A.", "quantifier": "all operands", "why_tests_cant": "unbounded", "anchors": ["include/malg/math.hpp: operator==", "include/malg/math.hpp: operator!=", "include/malg/math.hpp: operator<", "include/malg/math.hpp: operator<=", "include/malg/math.hpp: operator>", "include/malg/math.hpp: operator>="]}
{"id": "C37", "title": "all and any", "statement": "all(X) is true iff no element of X equals zero; any(X) is true iff some element is different from zero; all of an empty argument is true and any is false; any(X) == !all(X==0) for bool results.", "quantifier": "every matrix/view/vector", "why_tests_cant": "unbounded", "anchors": ["include/malg/math.hpp: all", "include/malg/math.hpp: any"]}
{"id": "C38", "title": "min and max", "statement": "For a non-empty vector over a total order, min returns the smallest value and the first index at which it occurs, max the largest value and its first index; for an empty vector both return (0,0). For a non-empty matrix they return the vector of column minima / maxima, and the empty vector for an empty matrix. Whatever < is, NaN included, each of these is what min / max of that column as a vector returns.", "quantifier": "every vector and matrix", "why_tests_cant": "unbounded", "anchors": ["include/malg/math.hpp: min", "include/malg/math.hpp: max"]}
{"id": "C39", "title": "sum and trace", "statement": "sum(v) is the sum of all elements. trace(A) is the sum of the diagonal for rows<=cols, and reads out of the diagonal (element (i,i) with i>=cols, out of bounds at the last row) when A has more rows than columns. Over a commutative ring trace is linear and trace(AB)==trace(BA).", "quantifier": "every vector / matrix", "why_tests_cant": "unbounded", "anchors": ["include/malg/math.hpp: sum", "include/malg/math.hpp: trace"]}
{"id": "C40", "title": "Norms", "statement": "Over the reals: square_norm is the Euclidean (Frobenius) norm; infinity_norm of a vector is the largest absolute value and of a Matrix the largest row sum of absolute values; sub_norm is the Frobenius norm of the strictly lower part and throws for non-square non-empty matrices; vector_length is the Euclidean norm of the chosen part of a column. infinity_norm and sub_norm of a View are always 0, because empty() is true for every view.", "quantifier": "every matrix/view/vector", "why_tests_cant": "unbounded", "anchors": ["include/malg/math.hpp: square_norm", "include/malg/math.hpp: infinity_norm", "include/malg/math.hpp: sub_norm", "include/malg/math.hpp: vector_length", "include/malg/matrix_base.hpp: MatrixBase::empty"]}
{"id": "C41", "title": "element_wise_function discards its results", "statement": "element_wise_function(v,f) returns a copy of v and element_wise_function(A,f) returns the zero matrix of A's shape, whatever f is; so abs, real and imag do not compute what their documentation says (abs({-1}) is {-1}); sign passes a function object that cannot be called on the elements and does not compile for any element type.", "quantifier": "every function, vector, matrix", "why_tests_cant": "for all f and all inputs", "anchors": ["include/malg/math.hpp: element_wise_function", "include/malg/math.hpp: abs", "include/malg/math.hpp: real", "include/malg/math.hpp: imag", "include/malg/math.hpp: sign"]}
{"id": "C42", "title": "Binary element-wise helpers", "statement": "element_wise_binary_function(A,B,f) throws iff shapes differ and otherwise has elements f(A(i,j),B(i,j)); element_wise_product is the Hadamard product and linear_combination(A,a,B,b) is a*A+b*B when both matrices have the same element type.", "quantifier": "every function and operands", "why_tests_cant": "for all f", "anchors": ["include/malg/math.hpp: element_wise_binary_function", "include/malg/math.hpp: element_wise_product", "include/malg/math.hpp: linear_combination"]}
{"id": "C43", "title": "log2_ceil", "statement": "Over the reals log2_ceil(A) terminates and returns (k, 2^-k) with k the least natural number such that infinity_norm(A)/2^k <= 1.", "quantifier": "every real matrix", "why_tests_cant": "unbounded norm", "anchors": ["include/malg/math.hpp: log2_ceil"]}
{"id": "C44", "title": "projection", "statement": "Over a field with b.b != 0, projection(a,b) is parallel to b and a - projection(a,b) is orthogonal to b; projecting twice changes nothing; sizes must match or it throws.", "quantifier": "all vectors", "why_tests_cant": "unbounded", "anchors": ["include/malg/math.hpp: projection", "include/malg/math.hpp: dot"]}
{"id": "C45", "title": "factorial", "statement": "factorial(n) is n! for n>=0 and 1 for n<0 (exact integers).", "quantifier": "all n", "why_tests_cant": "unbounded", "anchors": ["include/malg/linalg.hpp: factorial"]}
{"id": "C46", "title": "powm", "statement": "For square A with at least one row powm(A,n) is the n-th matrix power (identity for n=0), so powm(A,m+n) == powm(A,m)*powm(A,n); a zero dimension throws; for non-square A and n>=1 it throws.", "quantifier": "every matrix and exponent", "why_tests_cant": "unbounded exponent", "anchors": ["include/malg/linalg.hpp: powm"]}
{"id": "C47", "title": "conjugate_transpose", "statement": "conjugate_transpose(A)(j,i) is the complex conjugate of A(i,j); it is an involution and reverses products.", "quantifier": "every complex matrix", "why_tests_cant": "unbounded", "anchors": ["include/malg/linalg.hpp: conjugate_transpose"]}
{"id": "C48", "title": "determinant is exact up to 4x4", "statement": "determinant throws iff A is not square. For N in 1..4 the result is the Leibniz determinant over any commutative ring, for matrices and views alike.", "quantifier": "every square matrix up to 4x4 over every commutative ring", "why_tests_cant": "all values; sign errors in single terms of the 4x4 formula", "anchors": ["include/malg/linalg.hpp: determinant"]}
{"id": "C49", "title": "determinant of larger non-singular matrices", "statement": "For N>=5 over a field in exact arithmetic determinant(A) equals the mathematical determinant whenever that is non-zero, including when row exchanges are required; A is not changed; for N=0 the result is 1.", "quantifier": "every N>=5 and every non-singular matrix", "why_tests_cant": "unbounded size, pivoting paths", "anchors": ["include/malg/linalg.hpp: determinant"]}
{"id": "C50", "title": "determinant of larger singular matrices", "statement": "For N>=5 over a field determinant never returns zero: for a singular matrix it returns the non-zero product of the pivots met before the zero column (1 for the zero matrix). So determinant(A)==0 does not characterise singularity beyond 4x4.", "quantifier": "every N>=5 and every matrix", "why_tests_cant": "unbounded size", "anchors": ["include/malg/linalg.hpp: determinant"]}
{"id": "C51", "title": "adjoint", "statement": "adjoint throws iff A is not square; for N=1..5 over a commutative ring (N<=5 because the minors are at most 4x4) A*adjoint(A) == adjoint(A)*A == det(A)*I. For N>=6 over a field adjoint is the adjugate if every (N-1)-minor is non-singular, and it is wrong already for the 6x6 identity.", "quantifier": "every matrix up to 5x5 over every commutative ring; every N>=6 with non-singular minors", "why_tests_cant": "all values", "anchors": ["include/malg/linalg.hpp: adjoint"]}
{"id": "C52", "title": "inverse", "statement": "inverse throws iff A is not square. For N=1..4 over a field it returns the two-sided inverse exactly when det(A)!=0, and the empty matrix otherwise. For N=5 it returns the inverse when A is invertible, and a non-empty wrong matrix when A is singular. For N>=6 it may be wrong even for the identity matrix.", "quantifier": "every square matrix", "why_tests_cant": "all values", "anchors": ["include/malg/linalg.hpp: inverse"]}
{"id": "C53", "title": "div", "statement": "div(A,B) with B invertible (N<=5) is the matrix X with X*B == A; with singular B (N<=4) and A having at least one column it throws.", "quantifier": "every conformal pair", "why_tests_cant": "all values", "anchors": ["include/malg/linalg.hpp: div"]}
{"id": "C54", "title": "LU decomposition", "statement": "lu_decomposition throws iff A is not square; over a field, if no diagonal element of the returned l is zero, then l is lower triangular, u is unit upper triangular and l*u == A. That is the case whenever all leading principal minors of A are non-zero.", "quantifier": "every square matrix of every size", "why_tests_cant": "unbounded size", "anchors": ["include/malg/linalg.hpp: lu_decomposition"]}
{"id": "C55", "title": "linalg::exp is transposed", "statement": "linalg::exp(A) has shape cols x rows and element (c,r) equal to exp(A(r,c)), i.e. it is the element-wise exponential of the transpose, not of A.", "quantifier": "every matrix", "why_tests_cant": "all shapes", "anchors": ["include/malg/linalg.hpp: exp"]}
{"id": "C56", "title": "expm is a scaled truncated Taylor series", "statement": "Whenever expm(A,acc) returns, its value is (sum_{k<=K} (A/2^s)^k/k!)^(2^s) with s the scaling count of C43 and K a multiple of rows^2; in particular expm of the zero matrix is the identity, and expm of a nilpotent matrix is its exponential exactly, so that expm(A*(s+t)) == expm(A*s)*expm(A*t) for nilpotent A.", "quantifier": "every square real matrix and accuracy for which the loop ends", "why_tests_cant": "number of loop rounds is data dependent and unbounded", "anchors": ["include/malg/linalg.hpp: expm"]}
{"id": "C57", "title": "Controllability and observability matrices", "statement": "ctrb(A,B) throws iff A is not square or A.rows()!=B.rows() and otherwise is [B, AB, ..., A^(n-1)B]; obsv(A,C) is [C; CA; ...; CA^(n-1)] with the dual conditions; obsv(A,C) == transpose(ctrb(transpose(A),transpose(C))).", "quantifier": "every conformal pair", "why_tests_cant": "unbounded n", "anchors": ["include/malg/control/control.hpp: ctrb", "include/malg/control/control.hpp: obsv"]}
{"id": "C58", "title": "poly of a vector of roots", "statement": "poly(a) over a commutative ring returns the coefficients, highest degree first, of the product of (x - a[j]); it has size a.size()+1 and leading coefficient 1; for row/column matrices poly does the same.", "quantifier": "every vector of every length", "why_tests_cant": "unbounded length", "anchors": ["include/malg/control/control.hpp: poly(Vector)", "include/malg/control/control.hpp: poly(MatrixBase)"]}
{"id": "C59", "title": "poly of a square matrix is its characteristic polynomial", "statement": "For square A of size n>=2 over a field of characteristic zero, poly(A) returns the coefficients, highest degree first, of det(xI-A); non-square matrices that are not vectors throw; an empty matrix gives {1}.", "quantifier": "every square matrix", "why_tests_cant": "unbounded n", "anchors": ["include/malg/control/control.hpp: poly(MatrixBase)"]}
{"id": "C60", "title": "polyreduce", "statement": "polyreduce(a) removes exactly the leading zero coefficients, returns {0} if all are zero (or a is empty), keeps the value of the polynomial and is idempotent.", "quantifier": "every vector", "why_tests_cant": "unbounded", "anchors": ["include/malg/control/control.hpp: polyreduce"]}
{"id": "C61", "title": "Discrete simulation", "statement": "simulate(sys,u,T,x0) performs steps = min(u.size(), floor(T/Ts)) steps; it returns steps+1 states with x[0]=x0 and x[k+1] = A x[k] + B u[k], steps outputs y[k] = C x[k] + D u[k], and steps+1 time points with t[k] = k*Ts for k<steps; the last time point stays 0 instead of steps*Ts. Over a commutative ring x[k] = A^k x0 + sum_{j<k} A^(k-1-j) B u[j].", "quantifier": "every conformal system, every input sequence and duration", "why_tests_cant": "unbounded horizon", "anchors": ["include/malg/control/control.hpp: simulate", "include/malg/control/control.hpp: simulate_step"]}
{"id": "C62", "title": "Superposition of the simulation", "statement": "Over a commutative ring the response of simulate is linear: the states and outputs for inputs u+u' from x0+x0' are the element-wise sums of the separate responses, scaling the inputs and x0 scales the response, and with generate_state_zero and generate_input_zero inputs everything stays zero.", "quantifier": "every system, horizon and pair of inputs", "why_tests_cant": "unbounded horizon", "anchors": ["include/malg/control/control.hpp: simulate", "include/malg/control/control.hpp: generate_input_zero", "include/malg/control/control.hpp: generate_state_zero"]}
{"id": "C63", "title": "c2d", "statement": "Whenever c2d returns, C and D are copied, sample_time is stored, A is expm(A*Ts) and B satisfies A*Bd == (Ad - I)*B if A is invertible (n<=5). For a singular A of order at most 4 (an integrator, for instance) it throws. An empty C fails the assertion on the dimensions.", "quantifier": "every system", "why_tests_cant": "all values", "anchors": ["include/malg/control/control.hpp: c2d"]}
{"id": "C64", "title": "acker places the poles", "statement": "For a controllable single-input system of order 1..5 over a field and a row vector of n poles, acker returns K such that the characteristic polynomial of A - B*K is the product of (x - pole). An uncontrollable system of order at most 4 terminates the program with exit(1), as does a non-conformal input or a poles argument that is empty, not a row or a view. From order 5 on an uncontrollable system is not detected.", "quantifier": "every controllable pair and pole set", "why_tests_cant": "all values", "anchors": ["include/malg/control/control.hpp: acker"]}
{"id": "C65", "title": "approximately_equal", "statement": "Over the reals with 0<=tol: approximately_equal is reflexive, symmetric and scale invariant, accepts a,b iff |a-b| <= tol*max(|a|,|b|), and for tol<1 never accepts values of opposite strict sign or zero against non-zero. It is not transitive.", "quantifier": "all reals and tolerances", "why_tests_cant": "all values", "anchors": ["include/malg/feq.hpp: approximately_equal", "include/malg/feq.hpp: tolerance"]}
{"id": "C66", "title": "approximately_equal_to_zero", "statement": "With 0<=tol<1 approximately_equal_to_zero(a) is true iff a is exactly 0 (the relative test never accepts small non-zero values); with tol>=1 it is true for every a. lesser/greater-or-equal variants are (a<b or approx) and (a>b or approx); at least one of them holds for every pair.", "quantifier": "all reals and tolerances", "why_tests_cant": "all values", "anchors": ["include/malg/feq.hpp: approximately_equal_to_zero", "include/malg/feq.hpp: approximately_lesser_than_equal", "include/malg/feq.hpp: approximately_greater_than_equal"]}
{"id": "C67", "title": "Vector file round trip", "statement": "Writing a Vector of integers with ofstream<< and reading it back with ifstream>> into any Vector yields a Vector equal to the original, for every size including 0, and leaves the stream positioned so that a following record can be read.", "quantifier": "every vector, every target, every following file content", "why_tests_cant": "unbounded contents and sizes", "anchors": ["include/malg/io.hpp: operator<<(ofstream,Vector)", "include/malg/io.hpp: operator>>(ifstream,Vector)"]}
{"id": "C68", "title": "Matrix file round trip", "statement": "Writing a Matrix or view of integers with ofstream<< and reading it back with ifstream>> into any Matrix yields the same shape and elements; any sequence of vectors and matrices written to a file is read back in order.", "quantifier": "every matrix/view, every target shape, every sequence of records", "why_tests_cant": "unbounded", "anchors": ["include/malg/io.hpp: operator<<(ofstream,MatrixBase)", "include/malg/io.hpp: operator>>(ifstream,Matrix)"]}
{"id": "C69", "title": "Reading a record of the wrong kind", "statement": "If the next non-blank character of the file is not the expected tag, reading a Vector (Matrix) leaves the target unchanged and consumes the input up to and including that character. When nothing is left to read, or the stream has already failed, the behaviour is undefined.", "quantifier": "every file content and target", "why_tests_cant": "unbounded", "anchors": ["include/malg/io.hpp: operator>>"]}
{"id": "C70", "title": "Aligned printing", "statement": "operator<< on a stream prints every element right-aligned in a field whose width is the longest element text, elements of a row separated by one space and rows by newline, so every printed row of a matrix has the same length, and no element is truncated. The width ignores the stream's formatting flags, so with showpos the columns are not aligned; printing a non-square cofactor view is undefined. The text of a non-empty integer matrix determines its shape and elements (an empty one does not), and the text of a state-space model with non-empty integer matrices (its four matrices under the headings A, B, C, D, and for a discrete model the sample time) determines the model. A Range is printed as [start, stop], from which both can be read.", "quantifier": "every integer matrix/vector", "why_tests_cant": "unbounded", "anchors": ["include/malg/io.hpp: operator<<(ostream,MatrixBase)", "include/malg/io.hpp: operator<<(ostream,Vector)", "include/malg/io.hpp: get_longhest_value", "include/malg/io.hpp: operator<<(ostream,StateSpace)", "include/malg/io.hpp: operator<<(ostream,DiscreteStateSpace)"]}
{"id": "C71", "title": "to_matlab", "statement": "to_matlab(name,v) is `name = [e0 e1 ...]`; to_matlab(name,A) is `name = [[row0];[row1];...;]` with each row's elements separated by one space; the elements can be recovered from the text (different matrices of integers of the same shape give different text).", "quantifier": "every integer vector/matrix", "why_tests_cant": "unbounded", "anchors": ["include/malg/io.hpp: to_matlab"]}
{"id": "C72", "title": "wilkinson_shift", "statement": "Over complex numbers with an exact square root, for a matrix with at least two rows wilkinson_shift(A) is an eigenvalue of the bottom-right 2x2 block, and of the two it is one at least as close to A(N,N); for a 1x1 matrix it is 0; for an empty matrix it is undefined.", "quantifier": "every complex square matrix", "why_tests_cant": "all values", "anchors": ["include/malg/eigen.hpp: wilkinson_shift"]}
{"id": "C73", "title": "Mixed complex arithmetic", "statement": "The operators of complex_math between complex values of different precision and between complex and real values agree with converting both operands to complex and using field arithmetic.", "quantifier": "all values", "why_tests_cant": "all values", "anchors": ["include/malg/complex_math.hpp: operator+", "include/malg/complex_math.hpp: operator-", "include/malg/complex_math.hpp: operator*", "include/malg/complex_math.hpp: operator/"]}
{"id": "C74", "title": "logspace", "statement": "For 2<=n<2^32 in exact arithmetic logspace(start,stop,n,base) has n elements, element i equal to base^(linspace(start,stop,n)[i]); n==1 gives base^stop. Its loop counter is 32 bit, so from n=2^32 on the loop never ends.", "quantifier": "all arguments", "why_tests_cant": "n beyond 2^32 cannot be tested", "anchors": ["include/malg/utility.hpp: logspace"]}
{"id": "C75", "title": "inner_product and accumulate", "statement": "accumulate(first,last,init) is init plus the elements, left to right, and inner_product the init plus the pairwise products; over a ring inner_product of two equal-length ranges with init 0 equals dot. A range that leaves a buffer is undefined.", "quantifier": "every range and init", "why_tests_cant": "unbounded", "anchors": ["include/malg/utility.hpp: inner_product", "include/malg/utility.hpp: accumulate"]}
{"id": "C76", "title": "Random builders respect shape and bounds", "statement": "rand_matrix(r,c,lo,hi) / rand_vector(n,lo,hi) have the requested shape, and each element lies within the bounds whenever the underlying distribution does; elements are drawn in row-major order, one draw per element (two for complex, both parts in range).", "quantifier": "every generator stream and shape", "why_tests_cant": "all generator outputs", "anchors": ["include/malg/utility.hpp: rand_matrix", "include/malg/utility.hpp: rand_vector"]}
{"id": "C77", "title": "Damaged files", "statement": "Reading an n-element Vector whose record is damaged after k<n good values stores these k values. If a character follows that cannot start a number, element k becomes 0; if the number does not fit the element type, element k becomes the nearest bound; if the file ends, element k keeps its old value. All later elements keep the value they had before (0 for elements that did not exist) and the stream is left failed. If no number follows the tag the target becomes empty; if the file ends there, or the size cannot be allocated, the behaviour is undefined. The same holds for a Matrix record with the elements counted row by row, where the elements that are not read are those of the target resized to the new shape; a missing column count gives a matrix without columns and a failed stream, a missing row count (or the end of the file before either count) undefined behaviour. A negative size or count -n is read as 2^64-n, without an error.", "quantifier": "every prefix of values, every kind of damage, every target", "why_tests_cant": "unbounded contents", "anchors": ["include/malg/io.hpp: operator>>(ifstream,Vector)", "include/malg/io.hpp: operator>>(ifstream,Matrix)"]}
{"id": "C78", "title": "Chained output to files", "statement": "`f << a << b << ...` on an ofstream with vectors and matrices only writes the same text as separate statements. As soon as anything else (text, a number, endl) appears in the chain, the following vectors and matrices are written without tag and size, and reading them back leaves the target unchanged.", "quantifier": "every chain of records, every target", "why_tests_cant": "unbounded", "anchors": ["include/malg/io.hpp: operator<<(ofstream,Vector)", "include/malg/io.hpp: operator<<(ofstream,MatrixBase)", "include/malg/io.hpp: operator<<(ostream,Vector)"]}
{"id": "C79", "title": "Rounding error of sums and products", "statement": "When the element type rounds, every operation being right up to a relative error u (adding to zero being exact), sum and trace of n elements differ from the exact value by at most ((1+u)^(n-1)-1) times the sum of the absolute values, and dot, each entry of A*b and each entry of A*B, for inner dimension n, by at most ((1+u)^n-1) times the sum of the absolute values of the products.", "quantifier": "every rounded arithmetic that meets the standard model, every shape and content", "why_tests_cant": "rounding patterns are unbounded; tests compare a few results with a tolerance", "anchors": ["include/malg/math.hpp: sum", "include/malg/math.hpp: trace", "include/malg/math.hpp: dot", "include/malg/math.hpp: operator*(MatrixBase,MatrixBase)", "include/malg/math.hpp: operator*(MatrixBase,Vector)"]}
{"id": "C80", "title": "lu_decomposition is backward stable relative to |L||U|", "statement": "With a division that always has a value, lu_decomposition of a square matrix always returns. In every rounded arithmetic with relative error u < 1, whenever the pivots it computed are non-zero, L*U differs from A in each entry by at most ((1-u)^-(n+1) - 1) times the corresponding entry of |L|*|U|.", "quantifier": "every rounded arithmetic that meets the standard model, every square matrix for which the computed pivots are non-zero", "why_tests_cant": "the bound must hold for every matrix, size and rounding", "anchors": ["include/malg/linalg.hpp: lu_decomposition"]}
{"id": "C81", "title": "Operands of different element types", "statement": "An operator on matrices or vectors of element types T1 and T2 computes each element in the common type, from the converted operands; shapes are checked as for equal types. A constructor or an assignment from another element type converts each element. The in-place forms compute in the common type and convert the result to the element type of the left operand. element_wise_product and linear_combination instead convert the right operand's elements to T1 first, so int times double truncates; comparing int with unsigned compares unsigned values.", "quantifier": "every pair of element types and conversions, every shape and content", "why_tests_cant": "types and values are unbounded; tests use one type", "anchors": ["include/malg/math.hpp: operator+", "include/malg/math.hpp: operator-", "include/malg/math.hpp: operator*", "include/malg/math.hpp: operator+=", "include/malg/math.hpp: operator-=", "include/malg/math.hpp: operator*=", "include/malg/math.hpp: operator/=", "include/malg/math.hpp: operator<", "include/malg/math.hpp: operator>", "include/malg/math.hpp: operator<=", "include/malg/math.hpp: operator>=", "include/malg/math.hpp: operator==", "include/malg/math.hpp: operator!=", "include/malg/math.hpp: element_wise_product", "include/malg/math.hpp: linear_combination", "include/malg/math.hpp: dot", "include/malg/matrix.hpp: Matrix(const MatrixBase<T2>&)", "include/malg/matrix.hpp: operator=(const MatrixBase<T2>&)", "include/malg/vector.hpp: Vector(const Vector<T2>&)", "include/malg/vector.hpp: operator=(const Vector<T2>&)"]}
{"id": "C82", "title": "Iteration and data()", "statement": "A range-based for over a Vector visits its elements in order, and over a Matrix row after row, each exactly once; assigning through the loop variable replaces every element. data() of a matrix is its row-major contents. data() of any nesting of views is the buffer of the root matrix, so the view's window is ignored. A(Range,Range) is the window of A.", "quantifier": "every loop body, shape, content and nesting of views", "why_tests_cant": "unbounded shapes and bodies", "anchors": ["include/malg/vector.hpp: begin", "include/malg/vector.hpp: end", "include/malg/vector.hpp: data", "include/malg/matrix.hpp: begin", "include/malg/matrix.hpp: end", "include/malg/matrix.hpp: data", "include/malg/matrix.hpp: operator()(Range,Range)", "include/malg/view.hpp: data"]}
{"id": "C83", "title": "Matrix programs compute what the algebra says", "statement": "A program that builds matrices, reads and writes them directly or through nested views, copies, moves, assigns, resizes, reshapes, removes and swaps rows and columns, adds, subtracts, multiplies and scales in place, and evaluates nested expressions of +, -, *, element-wise product, scaling and transpose, shows exactly the values, dimensions and exceptions of the mathematical reading of its statements, and leaves exactly those contents in every matrix; an exception leaves every matrix unchanged.", "quantifier": "every legal sequence of statements over any number of matrices, every expression and nesting of views", "why_tests_cant": "the number of interleavings of operations and aliasing patterns is unbounded", "anchors": ["include/malg/matrix.hpp: Matrix", "include/malg/matrix.hpp: operator=", "include/malg/matrix.hpp: resize", "include/malg/matrix.hpp: reshape", "include/malg/view.hpp: View", "include/malg/view.hpp: CofactorView", "include/malg/math.hpp: operator+", "include/malg/math.hpp: operator-", "include/malg/math.hpp: operator*", "include/malg/math.hpp: operator+=", "include/malg/math.hpp: operator-=", "include/malg/math.hpp: operator*=", "include/malg/utility.hpp: remove_row", "include/malg/utility.hpp: remove_column", "include/malg/utility.hpp: swap_rows", "include/malg/utility.hpp: swap_cols", "include/malg/linalg.hpp: transpose"]}
{"id": "C84", "title": "Approximate comparison of doubles, with NaN and infinities", "statement": "For IEEE doubles: approximately_equal does not depend on the order of its arguments; it is false whenever an argument is NaN, as are the two order variants; every finite number is equal to itself; with a tolerance of at most 1/4, approximately_equal_to_zero and comparison with 0 are true of no finite non-zero number however small, and numbers of opposite signs are never equal. Infinities break it: an infinity is not equal to itself, but is equal to the opposite infinity and to every finite number, and counts as approximately zero. A == A is therefore true exactly at the finite elements.", "quantifier": "every pair of doubles including NaN, infinities, signed zeros and subnormals, every positive tolerance (at most 1/4 where stated), every matrix", "why_tests_cant": "2^128 pairs of doubles; tests use a few ordinary ones", "anchors": ["include/malg/feq.hpp: approximately_equal", "include/malg/feq.hpp: approximately_lesser_than_equal", "include/malg/feq.hpp: approximately_greater_than_equal", "include/malg/feq.hpp: approximately_equal_to_zero", "include/malg/feq.hpp: tolerance", "include/malg/math.hpp: operator=="]}
{"id": "C85", "title": "NaN, infinities and overflow in searches and inverses of doubles", "statement": "For matrices and vectors of IEEE doubles: all_close ignores every position with a NaN or twice the same infinity, so a matrix of NaN is close to everything; min and max return NaN at position 0 if the first element is NaN and otherwise ignore NaN, returning the first best number; on a matrix they do so column by column; flatnonzero lists NaN and leaves out infinities. determinant, adjoint, inverse and lu_decomposition return a value for every square matrix. inverse returns the empty matrix when the computed determinant is a zero or an infinity, even if the matrix is a well-conditioned one such as 1e200*I or 1e-200*I; a matrix of NaN when the determinant is NaN; adjoint/determinant otherwise. div throws in the first case.", "quantifier": "every shape and every content of doubles, every tolerance at most 1/4", "why_tests_cant": "special values can be anywhere; tests use ordinary numbers", "anchors": ["include/malg/utility.hpp: all_close", "include/malg/utility.hpp: flatnonzero", "include/malg/math.hpp: min", "include/malg/math.hpp: max", "include/malg/linalg.hpp: determinant", "include/malg/linalg.hpp: adjoint", "include/malg/linalg.hpp: inverse", "include/malg/linalg.hpp: div", "include/malg/linalg.hpp: lu_decomposition"]}
{"id": "C86", "title": "Signed integer elements: when results are defined", "statement": "For signed integers of w bits: each element of A+B, A-B and A*s is defined exactly when its mathematical value is in range, and then equal to it. sum, dot and each entry of A*B are defined exactly when every product and every partial sum, in the order of the indices, is in range; so a result that fits can still be undefined, and the order of the elements matters. If n times the largest |a| times the largest |b| is below 2^(w-1), A*B with inner dimension n is exact; if n! times the n-th power of the largest |a| is, so is the determinant of an n x n matrix, n <= 4. factorial(n) is defined exactly when n! is in range: up to 12 for 32 bits and 20 for 64 bits. A/s truncates each quotient towards zero; it is undefined exactly when A has elements and s is 0, or s is -1 and an element is the lowest integer. A*v and trace are defined exactly as dot and sum are, element by element; all_close compares the exact differences when these are in range.", "quantifier": "every width, shape and content", "why_tests_cant": "overflow depends on all elements and on their order", "anchors": ["include/malg/math.hpp: operator+", "include/malg/math.hpp: operator-", "include/malg/math.hpp: operator*", "include/malg/math.hpp: sum", "include/malg/math.hpp: dot", "include/malg/linalg.hpp: determinant", "include/malg/linalg.hpp: factorial"]}
{"id": "C87", "title": "Unsigned integer elements compute modulo 2^w", "statement": "For unsigned integers of w bits, A+B, A-B, A*s, sum, trace, dot, A*v, A*B, powm, factorial and the determinant up to 4 x 4 give the mathematical result modulo 2^w; A/s gives the whole quotients and is undefined for s = 0.", "quantifier": "every width, shape, content and exponent", "why_tests_cant": "wrap-around can happen at any step; tests use small numbers", "anchors": ["include/malg/math.hpp: operator+", "include/malg/math.hpp: operator-", "include/malg/math.hpp: operator*", "include/malg/math.hpp: sum", "include/malg/math.hpp: dot", "include/malg/linalg.hpp: determinant", "include/malg/linalg.hpp: factorial", "include/malg/linalg.hpp: powm"]}
{"id": "C88", "title": "Files and text of floating-point vectors and matrices", "statement": "With 17 significant digits (stream precision) or more, a vector, matrix or view of finite doubles written to a file is read back bit for bit, and the text tells any two doubles apart. With any precision P an element is read back as the double nearest to a number within half a unit of the P-th digit; at the default precision 6 reading never fails but digits are lost, and 16 digits are not always enough. With at most 15 digits and ordinary magnitudes, writing what was read gives the same file. Whole numbers with at most P digits are written as integers and read back exactly. Any decimal text, with or without sign, point and exponent, is read as a nearest double with its sign; out of range it is read as the largest double and the stream fails. NaN and infinities are written but not read: that element becomes 0, the stream fails and the later elements keep the target's values.", "quantifier": "every finite double, every shape and content, every precision, showpos or not, any text after the record", "why_tests_cant": "decimal conversion has to be right for all 2^64 doubles; tests use short decimals", "anchors": ["include/malg/io.hpp: operator<<", "include/malg/io.hpp: operator>>", "include/malg/io.hpp: get_longhest_value"]}
{"id": "C89", "title": "Sums and products of doubles: error, exactness and overflow", "statement": "For IEEE doubles with u = 2^-53: if the computed sum or trace of n numbers is finite, its error is at most ((1+u)^(n-1) - 1) times the sum of the magnitudes; the computed dot product, and each element of A*v and A*B with inner dimension n, is off by at most ((1+u)^n - 1) times the sum of the magnitudes of the products plus n (1+u)^(n-1) 2^-1075 for underflow. They are finite when that bound stays below the largest double. When all elements are integers, or integer multiples of one power of two, and the magnitudes add up to at most 2^53 units, sums and products are exact. Each element of A+B, A-B, A*s and A/s is the double nearest to the exact value, and infinite, with the right sign, exactly when that value is at least 2^1024 - 2^970 in magnitude. The underflow term is needed, the order of the elements matters, and A*(B*C) need not equal (A*B)*C.", "quantifier": "every shape, every length n, every content of doubles including subnormals", "why_tests_cant": "the error depends on all elements; tests use a few short vectors and a tolerance", "anchors": ["include/malg/math.hpp: sum", "include/malg/math.hpp: dot", "include/malg/math.hpp: operator+", "include/malg/math.hpp: operator-", "include/malg/math.hpp: operator*", "include/malg/math.hpp: operator/", "include/malg/linalg.hpp: trace"]}
{"id": "C90", "title": "LU decomposition of doubles: backward error and finiteness", "statement": "For every square matrix of IEEE doubles lu_decomposition returns two matrices of doubles, the first lower triangular, the second upper triangular with ones on the diagonal. If all their elements are finite, then so are those of A, no pivot but possibly the last is zero, and each element of the exact product L*U differs from that of A by at most ((1-u)^-(n+1) - 1) times the element of |L|*|U|, u = 2^-53, plus n (1-u)^-n (1+|L(i,i)|) 2^-1075 for underflow. There is no pivoting: a finite invertible matrix can have factors with infinities or NaN, and the error is not bounded in terms of the size of A (it can be as large as A's largest element).", "quantifier": "every size and every content of doubles including subnormals, NaN and infinities", "why_tests_cant": "the error accumulates over all elements and steps; tests compare a few small matrices with a tolerance", "anchors": ["include/malg/linalg.hpp: lu_decomposition"]}
{"id": "C91", "title": "basis<T>() finds base 2 in every binary floating-point format", "statement": "basis<T>() returns 2 for every IEEE binary format with at least 2 digits (float and double among them), with rounding to nearest; its loops end after as many rounds as the format has digits. For a signed integer type (int or wider) it overflows, which is undefined behaviour; for an unsigned one its first loop never ends.", "quantifier": "every binary format, every width of an integer type", "why_tests_cant": "a test sees one format on one machine", "anchors": ["include/malg/utility.hpp: basis"]}
{"id": "C92", "title": "Comparisons and searches of finite doubles are those of the numbers", "statement": "For finite IEEE doubles (subnormals and signed zeros included): <, <=, > and >= between matrices compare the numbers exactly; min and max return the first least / greatest number, and on a matrix one of each column's least / greatest. all_close is true if no two elements differ by more than the tolerance, and if it is true they differ by at most tolerance/(1-u), u = 2^-53; the slack is needed. With a tolerance t from 0 to 1, a == b is true if |a-b| <= t*max(|a|,|b|), and if it is true then (1-u)|a-b| <= (1+u)*t*max(|a|,|b|) + 2^-1075; the approximate <= and >= hold whenever the exact ones do, and otherwise only within that distance.", "quantifier": "every shape and every content of finite doubles, every tolerance", "why_tests_cant": "rounding of the difference and the product can fall on either side for any of 2^128 pairs", "anchors": ["include/malg/math.hpp: operator==", "include/malg/math.hpp: operator<", "include/malg/math.hpp: operator<=", "include/malg/math.hpp: operator>", "include/malg/math.hpp: operator>=", "include/malg/math.hpp: min", "include/malg/math.hpp: max", "include/malg/utility.hpp: all_close", "include/malg/feq.hpp: approximately_equal", "include/malg/feq.hpp: approximately_lesser_than_equal", "include/malg/feq.hpp: approximately_greater_than_equal"]}
{"id": "C93", "title": "The norm, log2_ceil and expm of doubles end and scale by an exact power of two", "statement": "For every matrix of doubles, NaN and infinities included: infinity_norm returns a non-negative number or +infinity, never NaN; it is zero or one of the computed row sums, none of them compares greater, and rows whose sum is NaN are ignored. log2_ceil ends: for a finite norm x it makes k <= 1024 halvings and returns k, the least exponent with x <= 2^k, and the exact 2^-k; for an infinite norm it returns 1075 and 0. expm of every non-empty square matrix ends, for every accuracy and every finite tolerance, after at most 1076 terms and 1075 squarings, with a matrix of the same shape or an exception. It is not the exponential when a row sum overflows: then the result can be the identity.", "quantifier": "every matrix of doubles, accuracy and finite tolerance", "why_tests_cant": "termination depends on gradual underflow of the factor 1/k! and of the scale, and on NaN making comparisons false", "anchors": ["include/malg/math.hpp: infinity_norm", "include/malg/math.hpp: log2_ceil", "include/malg/linalg.hpp: expm"]}
{"id": "C94", "title": "linspace of doubles stays near the exact points", "statement": "linspace(start, stop, n) of finite doubles of size at most 2^1022 that feq does not consider equal, 2 <= n <= 2^32: every element is finite and within 2^-50*max(|start|,|stop|) + n*2^-1074 of start + (stop-start)*i/(n-1); the first is start; they never decrease if start < stop and never increase otherwise. If start and the step are multiples of one power of two and all numbers involved have at most 53 bits, every element is exact. The last element need not be stop: linspace(0,1,50) ends below 1 and linspace(0,7,26) above 7. If stop-start overflows, the first element is NaN and all others are infinite.", "quantifier": "every pair of doubles and every count up to 2^32", "why_tests_cant": "the rounding error depends on every bit of the ends and the count", "anchors": ["include/malg/utility.hpp: linspace"]}
{"id": "C95", "title": "What the functions do when sizes do not fit together", "statement": "The simulation functions do not compare sizes. For matrices of any shapes and vectors of any sizes, simulate_step reads out of bounds exactly when a vector that is used is shorter than the columns of a non-empty matrix it is multiplied by, and otherwise throws exactly when A and B, or C and D, have different numbers of rows; elements past the needed ones are ignored. simulate of a consistent system is defined exactly when there is no step or the initial state and every used input are long enough. For a controllable system of order 1..5, acker with fewer poles than states reads out of bounds, and with more poles than states it gives the closed loop only the leading coefficients of the wanted polynomial. expm and c2d of a matrix that is not square throw; for an invertible A of order 1..5, c2d throws if B, and is undefined if C, does not fit A. swap_rows with a missing row is undefined once there is a column to exchange, and so is swap_cols with a missing column when the last row is included; with other rows it can exchange elements of different rows.", "quantifier": "every shape of the matrices and every size of the vectors", "why_tests_cant": "the combinations of shapes are unbounded and an access out of bounds often goes unnoticed", "anchors": ["include/malg/control/control.hpp: simulate_step", "include/malg/control/control.hpp: simulate", "include/malg/control/control.hpp: acker", "include/malg/control/control.hpp: c2d", "include/malg/linalg.hpp: expm", "include/malg/utility.hpp: swap_rows", "include/malg/utility.hpp: swap_cols"]}
{"id": "C96", "title": "QR decomposition and solve, once they compile", "statement": "qr_decomposition and solve do not compile as written; this is about the code with two repairs (2./(u*u) taken as 2./dot(u,u), and views built from the address of the matrix). Over a real closed field with exact arithmetic: for every r x c matrix A, 0 < c <= r, with independent columns, qr_decomposition returns Q with Q^T Q = I and R, zero below the diagonal and non-zero on it, with Q R = A. With fewer rows than columns (independent leading columns) it reads out of bounds, and without rows it throws. solve(A,b) returns: for a square invertible A of order <= 5 the solution; for a singular one of order 1..4 an empty vector; for more rows than columns (independent columns, at most 5) the least squares solution; for fewer rows than columns (independent rows, at most 5) the solution of least length. With doubles, a column of zeros fills Q and R with NaN.", "quantifier": "every shape and every content with independent columns (rows)", "why_tests_cant": "orthogonality and the product are identities over all real matrices; the code has never been compiled", "anchors": ["include/malg/linalg.hpp: qr_decomposition", "include/malg/linalg.hpp: solve"]}
{"id": "C97", "title": "Hessenberg form and Givens rotations, once they compile", "statement": "eigen::hessenberg and eigen::qr_factorise_givens do not compile as written; this is about the code with the repairs listed in Eigen.v (identity given the value 1, vector_length given its end row, norms chosen with if constexpr). Over the complex numbers with exact arithmetic: for every square A with at least one row, hessenberg returns P and H with H = P* A P; and there is a bound such that for every machine epsilon up to it P is unitary, H is zero below the first subdiagonal and A = P H P*. The bound is needed: for every epsilon there is a 3 x 3 matrix (a column shorter than epsilon) for which P is singular and A is not P H P*. qr_factorise_givens returns, for every epsilon > 0 and every square A, a unitary Q and R with Q R = A, and if A is Hessenberg every element of R below the diagonal is smaller than epsilon, and zero if no element just below the diagonal of A is; if all of those are, Q is the identity and R is A. Both throw on a 0 x 0 matrix.", "quantifier": "every order, every complex content, every epsilon > 0", "why_tests_cant": "the factorisations are identities over all complex matrices; the code has never been compiled", "anchors": ["include/malg/eigen.hpp: hessenberg", "include/malg/eigen.hpp: qr_factorise_givens"]}
{"id": "C98", "title": "Schur form and eigenvectors of triangular matrices, once they compile", "statement": "eigen::QRHessenberg and eigen::eigenvectorUpper do not compile as written; this is about the code with the same repairs as in C97. Exact complex arithmetic. For every square A with at least one row, any number of passes and whatever shifts are used, QRHessenberg ends and returns HM and UT with UT = HM* A HM; for every epsilon up to some bound that depends on A, HM is unitary, A = HM UT HM*, and UT has the eigenvalues of A with multiplicity; it makes QR passes from the Hessenberg form until the change of a pass plus the part below the diagonal is at most the tolerance, or the number of passes is used up, and the warning is printed exactly if the last pass did not get there; if no warning is printed, every element of UT below the diagonal is at most the tolerance. The library's shift (wilkinson_shift) never fails here. For every upper triangular M, column l of the matrix that eigenvectorUpper returns is a unit vector v with M v = M(l,l) v up to epsilon in the rows whose diagonal element is nearer than epsilon to M(l,l) and exactly elsewhere, or it is zero and no such vector exists; the flag is false exactly if some column is zero. If the diagonal elements are at least epsilon apart, the matrix is invertible and M E = E D.", "quantifier": "every order, every complex content, every epsilon > 0, every number of passes, every shift", "why_tests_cant": "similarity must hold after every number of passes on every matrix; the code has never been compiled", "anchors": ["include/malg/eigen.hpp: QRHessenberg", "include/malg/eigen.hpp: eigenvectorUpper", "include/malg/eigen.hpp: wilkinson_shift"]}
{"id": "C99", "title": "Discrete simulation of doubles", "statement": "simulate(sys, u, T, x0) with doubles, T >= 0, sample time Ts > 0, both finite, and consistent shapes: the number of steps is min(u.size(), K), where K is T/Ts cut off, up to the rounding of the quotient: T/Ts*(1-2^-53) - 1 < K <= T/Ts*(1+2^-53), and K is the floor of T/Ts or one more if T/Ts < 2^53. There is one time and one state more than outputs. Time k is within ((1+2^-53)^(k-1) - 1) k Ts of k Ts, the times never decrease and up to 2^51 steps they increase; but the last time is always 0. Every state and output is the exact A x + B u (C x + D u) of the state and input before it up to ((1+2^-53)^(N+1) - 1) times the sum of the sizes of the products, N the larger dimension, plus an underflow term; it is finite if that stays below the largest double, and if it is finite so are the state and input before it. Decimal reasoning about T and Ts fails: T = 0.3 with Ts = 0.1 makes 2 steps, T = 1 makes 10. If T/Ts >= 2^64 or <= -1, or Ts is zero, the behaviour is undefined, however few inputs there are.", "quantifier": "every system, every input sequence, every simulated time and sample time that are finite doubles", "why_tests_cant": "the step count and the errors depend on every bit of the arguments and on the number of steps", "anchors": ["include/malg/control/control.hpp: simulate", "include/malg/control/control.hpp: simulate_step"]}
{"id": "C100", "title": "The small templates that do not compile, once they do", "statement": "is_zero, is_constant, is_identity, is_orthogonal, is_invertible, is_linearly_dependent, is_linearly_independent, hermitian_transpose, Matrix += scalar, Matrix -= scalar, Vector op= scalar, scalar * Vector, sign and to_cpp do not compile as written; this is about the code with the repairs listed in Repaired.v. is_zero holds exactly if all elements are zero, is_constant exactly if all are equal; is_identity and is_orthogonal are false unless the matrix is square, throw for 0 x 0, and otherwise hold exactly if each element of A (of A times its transpose) compares equal to that of the unit matrix. is_invertible, is_linearly_dependent and is_linearly_independent throw unless the matrix is square; over a field they are right up to order 4 and for every matrix that has an inverse, but from order 5 on every matrix, also a singular one, is called invertible and independent. hermitian_transpose has the conjugate of element (j,i) at (i,j). The scalar operators act on each element of the object, or of the view, and leave the rest. sign returns a vector unchanged, and zeros for a matrix. to_cpp is the C++ declaration with the elements in braces and commas. For the same name and type, equal declarations of integers or complex integers come from equal vectors, or from matrices of the same shape with equal elements (the number of columns is lost only if there are no rows).", "quantifier": "every size and content, every element type with exact arithmetic for the determinant tests", "why_tests_cant": "the code has never been compiled; the claims are about all matrices", "anchors": ["include/malg/utility.hpp: is_zero", "include/malg/utility.hpp: is_constant", "include/malg/utility.hpp: is_identity", "include/malg/utility.hpp: is_orthogonal", "include/malg/utility.hpp: is_invertible", "include/malg/utility.hpp: is_linearly_dependent", "include/malg/utility.hpp: is_linearly_independent", "include/malg/linalg.hpp: hermitian_transpose", "include/malg/math.hpp: operator+=", "include/malg/math.hpp: operator-=", "include/malg/math.hpp: operator*=", "include/malg/math.hpp: operator/=", "include/malg/math.hpp: operator*", "include/malg/math.hpp: sign", "include/malg/io.hpp: to_cpp"]}
{"id": "C101", "title": "Determinants, adjoints and inverses of doubles up to order 4", "statement": "If all elements of a square matrix of doubles are whole numbers of size at most x, times one power of two, and n! x^n is at most 2^53, then determinant up to order 4 and, with n - 1 for n, adjoint up to order 5 return the exact determinant and adjoint, and inverse up to order 4 returns the empty matrix exactly if the matrix is singular and otherwise a matrix each of whose elements is the double nearest to that of the exact inverse. For any doubles that are zero or at least 2^-216 in size, a finite computed determinant differs from the exact one by at most ((1+u)^(n!+n-2) - 1) times the permanent of the absolute values; if the exact one is larger than that, the computed one is not zero and has its sign; and it is finite if n! x^n (1+u)^(n!+n-2) is below the largest double, where x bounds the elements. Without the bound an invertible matrix may have a computed determinant of zero and an empty inverse.", "quantifier": "all square matrices of doubles up to order 4 (5 for the adjoint) that meet the stated bounds", "why_tests_cant": "the rounding errors of up to 24 products of 4 elements depend on every bit of the input", "anchors": ["include/malg/linalg.hpp: determinant", "include/malg/linalg.hpp: adjoint", "include/malg/linalg.hpp: inverse"]}
{"id": "C102", "title": "Square roots and norms of doubles", "statement": "std::sqrt as used by the norms returns, for a positive double, the double nearest to the exact root, and the exact root if that is a double. square_norm of a vector and of a matrix, vector_length of a column and sub_norm compute a number d that is, with N elements x: NaN-free (zero, positive or +infinity) if all x are finite; finite only if all x are; with d*d off from the exact sum S of the squares by at most ((1+u)^(N+2) - 1) S plus N (1+u)^(N+1) 2^-1075; finite if the sum of squares (with its rounding) is in range; zero exactly if all x are zero, unless some x is below 2^-537 in size; and exact if the x are whole numbers times a power of two whose squares add up to a square of at most 2^53. sub_norm is zero for an empty matrix and throws unless the matrix is square. infinity_norm of a vector is exactly the largest absolute value. The norm of a single double may be infinite or zero though the double is neither, because its square overflows or underflows.", "quantifier": "every vector and matrix of doubles, every size", "why_tests_cant": "each element is squared and rounded; the bounds are about all inputs of all sizes", "anchors": ["include/malg/math.hpp: square_norm", "include/malg/math.hpp: vector_length", "include/malg/math.hpp: sub_norm", "include/malg/math.hpp: infinity_norm"]}
{"id": "C103", "title": "How close expm is to the exponential", "statement": "In exact arithmetic, whenever expm(A, accuracy) returns for a Matrix of order n and infinity norm a, there is a number K of at least n^2 of terms such that for every L from K on the largest row sum of the absolute difference between the result and 1 + A + ... + A^L/L! is at most the sum of a few of the terms a^k/k! with k > K: scaling and squaring never makes the result worse than the series cut at K. So, if A has an exponential X (the limit of the sums) and a < K + 2, the result is within a^(K+1)/(K+1)! * (K+2)/(K+2-a) of X. The same holds for a view, whose elements are never scaled, with a any bound on the row sums. If A*A = 0 and the accuracy is 0 then expm returns, and returns I + A.", "quantifier": "all square matrices of every order over an ordered archimedean field, every accuracy, every L", "why_tests_cant": "the bound is about all matrices and an infinite series", "anchors": ["include/malg/linalg.hpp: expm", "include/malg/linalg.hpp: log2_ceil"]}
{"id": "C104", "title": "Determinants, adjoints, inverses and quotients of integer matrices", "statement": "For a square matrix of signed integers of w bits whose elements are at most x in size: if n! x^n is below 2^(w-1), determinant up to order 4 and, with n - 1 for n, adjoint up to order 5 return the exact determinant and adjoint. If n! x^n is moreover at most 2^53, inverse up to order 4 (a matrix of doubles) returns the empty matrix exactly if the matrix is singular, and otherwise a matrix each of whose elements is the double nearest to that of the exact inverse; it throws if the matrix is not square. div(A, B) then throws if B is singular and otherwise multiplies A by such an inverse with the error bounds of C89. From order 5 on this fails without any overflow, because the elimination divides integers; the quotient of two 5 x 5 matrices of int recorded in tests/test_math.cpp is that of an overflowing, wrong determinant.", "quantifier": "all widths w, all orders up to the stated ones, all matrices and views of integers within the bound, all tolerances up to 1/4", "why_tests_cant": "Whether every intermediate product and sum stays in range depends on all elements together; the repository's own test records wrong values.", "anchors": ["include/malg/linalg.hpp: determinant", "include/malg/linalg.hpp: adjoint", "include/malg/linalg.hpp: inverse", "include/malg/linalg.hpp: div"]}
{"id": "C105", "title": "Save, load, compare", "statement": "A vector, matrix or view of finite doubles of size at most 10^308, written to a file with P significant digits and read back, has the same shape and satisfies all(read == written) and all(written == read) whenever the comparison tolerance is between 10^(1-P) and 1; nothing that follows in the file is consumed. In particular what tests/test_read_write_file.cpp checks for one random vector and matrix (nine digits, tolerance 10^-6, numbers between -10 and 10) holds for all of them. With the default six digits it does not.", "quantifier": "all vectors, matrices and views of finite doubles up to 10^308, all precisions, all tolerances in the stated range, all targets and all text before and after", "why_tests_cant": "The test draws five random numbers; whether an element fails depends on its digits.", "anchors": ["include/malg/io.hpp: operator<<(ofstream,Vector)", "include/malg/io.hpp: operator>>(ifstream,Vector)", "include/malg/io.hpp: operator<<(ofstream,MatrixBase)", "include/malg/io.hpp: operator>>(ifstream,Matrix)", "include/malg/feq.hpp: approximately_equal"]}
{"id": "C106", "title": "The same computation in another arithmetic", "statement": "If two element types are related so that the operations a function uses take related operands to related results, then the function gives related results on related inputs: the same outcome (value, exception, undefined behaviour, exit), the same shape and related elements. This holds for some 120 functions, from construction and stacking to determinants, inverse, LU, expm, acker, c2d and simulate. Consequences: a computation of sums and products with w-bit unsigned integers gives the exact integer result modulo 2^w; with signed integers it gives the exact result, and the same as any wider type and the same bits as the unsigned type, where it does not depend on an overflow; with doubles that hold whole numbers it is exact as long as no intermediate result leaves -2^53..2^53-1; the tolerance of the comparisons has no effect on sums, products and quotients; ring homomorphisms such as complex conjugation commute with these functions; and a computation with rational numbers gives the same, comparisons and all, as with real numbers.", "quantifier": "all relations and pairs of element types, all inputs of every shape (matrices, views, vectors, systems), all widths", "why_tests_cant": "A test runs one function on one type; the claim relates runs of every function on two types for all inputs.", "anchors": ["include/malg/math.hpp: operator*", "include/malg/math.hpp: dot", "include/malg/math.hpp: linear_combination", "include/malg/utility.hpp: vstack", "include/malg/utility.hpp: hstack", "include/malg/utility.hpp: extract", "include/malg/utility.hpp: linspace", "include/malg/linalg.hpp: determinant", "include/malg/linalg.hpp: adjoint", "include/malg/linalg.hpp: inverse", "include/malg/linalg.hpp: powm", "include/malg/linalg.hpp: lu_decomposition", "include/malg/linalg.hpp: expm", "include/malg/control/control.hpp: ctrb", "include/malg/control/control.hpp: obsv", "include/malg/control/control.hpp: poly", "include/malg/control/control.hpp: acker", "include/malg/control/control.hpp: simulate", "include/malg/control/control.hpp: c2d"]}
{"id": "C107", "title": "Rounding errors of a whole computation", "statement": "For every function that only adds, subtracts, multiplies and divides (products, powers, matrix-vector products, dot, trace, norms without the root, determinants up to order 4, adjoints up to order 5, LU, characteristic polynomials, controllability matrices, whole simulations) and all finite double inputs: run the same function on pairs of an exact value and an error bound, adding at each operation the propagated bounds and one rounding error (2^-53 of the magnitude plus 2^-1075), and giving up where an overflow or a division by zero cannot be excluded. Then where a bound comes out, the double result is finite and within it of the result of exact rational arithmetic.", "quantifier": "all finite double inputs of all shapes, all powers, all lengths of simulation", "why_tests_cant": "Rounding errors depend on the bits of all operands.", "anchors": ["include/malg/math.hpp: operator*", "include/malg/math.hpp: dot", "include/malg/math.hpp: trace", "include/malg/linalg.hpp: powm", "include/malg/linalg.hpp: determinant", "include/malg/linalg.hpp: adjoint", "include/malg/linalg.hpp: lu_decomposition", "include/malg/control/control.hpp: poly", "include/malg/control/control.hpp: ctrb", "include/malg/control/control.hpp: simulate"]}
{"id": "C108", "title": "The Schur iteration can go on for ever", "statement": "QRHessenberg, with the repairs of C97, does not always converge. Exact complex arithmetic: let A be a Hessenberg matrix whose elements just below the diagonal are larger than epsilon (and the tolerance), such that A - mu I is unitary, mu being the shift the code uses for A and for A up to factors of modulus 1 (the computed shift, or 1 if that is smaller than epsilon). Then hessenberg(A) is A up to factors of modulus 1, every pass returns A up to such factors, and however many passes are allowed the warning is printed and UT has elements of the same modulus as A. With the library's shift this happens for z I + C, C the cyclic permutation of n >= 3 coordinates, for every z of modulus at least epsilon; the comment in the code that unitary matrices are prevented from causing a problem only covers a shift near zero. The same happens with complex doubles, bit by bit, for the rows (2,0,1), (1,2,0), (0,1,2).", "quantifier": "all n >= 3, all z, all epsilon in (0,1), all tolerances below 1, all numbers of passes, all square root functions", "why_tests_cant": "A test of one matrix with 10000 passes cannot show that no number of passes is enough.", "anchors": ["include/malg/eigen.hpp: QRHessenberg", "include/malg/eigen.hpp: qr_factorise_givens", "include/malg/eigen.hpp: hessenberg", "include/malg/eigen.hpp: wilkinson_shift"]}
{"id": "C109", "title": "Powers, polynomials, pole placement and discretisation are defined for floating-point elements of any value", "statement": "For an element type whose division always has a value (float, double), and elements of any value, NaN and infinities included, the outcome of these functions depends on shapes only, apart from the stated zero tests. powm(A, k), A n x n, is the identity multiplied k times by A. ctrb(A, B) and obsv(A, C) are the matrices whose block 0 is B (C) itself and whose block k is powm(A, k) B (C powm(A, k)). poly of an n x n matrix, n >= 2, has n+1 coefficients given by the recurrence of Faddeev and Le Verrier. acker with n states and p poles ends the program when the computed determinant of ctrb(A, B) counts as zero, and otherwise returns the row e_n inverse(ctrb) phi(A) when p >= n and is undefined when p < n. expm of a matrix of doubles of any shape throws or returns a matrix of that shape. c2d of a system of doubles of any shapes throws when A is not square, is empty or has not as many rows as B, or when A's determinant counts as zero or expm throws; otherwise it fails an assertion exactly when B has no columns, C has no rows or C has not as many columns as A has rows, and else returns expm(A Ts), an n x m matrix, C, D and Ts. Multiplying finite doubles by the identity, and powm(A, 1), change no number; this is false of infinite elements, which turn elements of their row or column into NaN.", "quantifier": "all element types with a total division (all values of all elements), all shapes, all powers, all numbers of poles, all accuracies and finite tolerances", "why_tests_cant": "Tests use a few well-formed systems of small numbers; that no read leaves a matrix and that the loops end must hold for every shape and for NaN and infinities.", "anchors": ["include/malg/linalg.hpp: powm", "include/malg/linalg.hpp: expm", "include/malg/control/control.hpp: ctrb", "include/malg/control/control.hpp: obsv", "include/malg/control/control.hpp: poly", "include/malg/control/control.hpp: acker", "include/malg/control/control.hpp: c2d"]}
{"id": "C110", "title": "The Schur iteration converges for triangular matrices and, if no eigenvalue is tiny, for matrices of two rows", "statement": "With the repairs needed to compile and in exact arithmetic, QRHessenberg of an upper triangular matrix of any order makes one pass, returns the identity and that matrix, and prints no warning. A pass from a Hessenberg matrix whose elements just below the diagonal are not smaller than epsilon leads to a Hessenberg matrix, and if the shift is an eigenvalue, its last row is zero but for the shift, on the diagonal. For a matrix of two rows with epsilon at most the tolerance, QRHessenberg needs at most two passes and prints no warning if the element below the diagonal is smaller than epsilon (nothing changes) or both eigenvalues have modulus at least epsilon (UT is upper triangular, its last element being the eigenvalue nearest to the last element of A). That is false of matrices with a zero eigenvalue, whose shift 0 is replaced by 1: for every Hermitian matrix with rows (2 - d, z), (z*, d), eigenvalues 0 and 2 and 0 < d < 1, and for the matrix of two rows whose elements are all 1, the warning is printed and the element below the diagonal keeps its modulus however many passes are allowed; for the latter also in complex doubles, where the passes go back and forth between two matrices.", "quantifier": "all upper triangular matrices of all orders, all matrices of two rows, all epsilon, tolerances and numbers of passes", "why_tests_cant": "A test sees one matrix converge or not; convergence within two passes, and no convergence in any number of them, are statements about all matrices of a class and all numbers of passes.", "anchors": ["include/malg/eigen.hpp: QRHessenberg", "include/malg/eigen.hpp: hessenberg", "include/malg/eigen.hpp: qr_factorise_givens", "include/malg/eigen.hpp: wilkinson_shift"]}
{"id": "C111", "title": "Discretisation keeps equilibria and the direction of real modes, whatever the sample time", "statement": "In exact arithmetic, if c2d(sys, Ts) returns for a system with invertible A of order at most 5, then one simulated step from the state x under the input u moves by g with A g = (A_d - I)(A x + B u). So every equilibrium (A x + B u = 0) of the given system is kept exactly by the discrete one, however coarse the computed exponential is, and there are no others if A_d does not have the eigenvalue 1. A run under a held input that starts at its equilibrium plus any number of real eigenvectors of A multiplies each of these by a fixed factor per step; the factor lies in [0, 1) if the eigenvalue times Ts is negative and is at least 1 + eigenvalue * Ts if it is positive. If all are negative, the run tends to the equilibrium: for every distance there is a number of steps after which every run, however long, stays that near.", "quantifier": "all systems with invertible A of order 1 to 5 that c2d converts, all sample times, accuracies, held inputs, numbers of real modes and lengths of runs", "why_tests_cant": "A test tries some systems, sample times and run lengths; that no sample time makes a decaying mode grow is a statement about all of them.", "anchors": ["include/malg/control/control.hpp: c2d", "include/malg/control/control.hpp: simulate_step", "include/malg/control/control.hpp: simulate", "include/malg/linalg.hpp: expm"]}
{"id": "C112", "title": "What the example programs model and print, and how long they run", "statement": "The program sim_rlc_dt.cpp makes one pass for every time t = 0, dt, dt + dt, ... (added up in floating point) below the end time; on each it prints the time, the input at that time and the output of the state after the step, and at the end the number of passes. With doubles it ends if the end is at most 2^50 increments away, after about end / dt passes, and never if it is 2^55 or more away, because the time stops moving. The announced number of time points need not be the number of passes: with the times in the program it announces 2000 and makes 2001. In exact arithmetic and for positive components the circuit of sim_rlc_dt.cpp and the pendulum have only decaying modes, and their stored energy changes by what the input brings in less what the resistance or friction takes; the circuit is controllable and observable and poly returns its characteristic polynomial. The circuit of sim_rlc_ct.cpp, meant to be the same, has a growing mode for all positive components and creates energy.", "quantifier": "all systems, inputs, end times and increments for the loop; all doubles for its length; all positive components for the models", "why_tests_cant": "The programs have no tests; a run shows one set of components and one duration, not for which of them the loop ends or the model is stable.", "anchors": ["examples/sim_rlc_dt.cpp: main", "examples/sim_rlc_dt.cpp: compute_samples", "examples/sim_rlc_ct.cpp: Model", "examples/pendulum.cpp: Model", "include/malg/control/control.hpp: StateSpace", "include/malg/control/control.hpp: ctrb", "include/malg/control/control.hpp: obsv", "include/malg/control/control.hpp: poly"]}
{"id": "C113", "title": "Bounded runs on doubles stay bounded and accurate for ever", "statement": "If a box of states is mapped into itself by x -> A x + B u for all inputs within given bounds, with room for the rounding of the sums, then simulate on doubles, started in the box with such inputs, returns and never overflows: every state of the run is finite and in the box and every output is finite and bounded. If, moreover, |A| e plus the rounding error of one step is at most e, every state differs from that of the exact run by at most e and every output by a corresponding bound, whatever the number of steps. Such a box and such an e exist when the row sums of |A| are less than one by a margin.", "quantifier": "all systems of any order with finite entries, all boxes and error bounds as described, all input sequences of any length within the bounds and all durations below 2^64 sample times", "why_tests_cant": "A test runs some hundred steps; that rounding errors do not add up over any number of steps is a statement about runs of every length.", "anchors": ["include/malg/control/control.hpp: simulate", "include/malg/control/control.hpp: simulate_step", "include/malg/math.hpp: operator+", "include/malg/math.hpp: dot"]}
{"id": "C114", "title": "Determinants of doubles of order 5 and above", "statement": "determinant of a square matrix of doubles of order 5 or more always returns. If the result is finite and no column ran out of usable pivots, it is the exact determinant of a nearby matrix up to one rounding error per row: the nearby matrix is L U with its rows put back in order, L lower triangular with ones on the diagonal and U upper triangular, and differs from the given one by at most a multiple of 2^-53 |L| |U| (plus underflow). If a column ran out of pivots, its remaining elements are zero or have overflowed; if they are all zero, a nearby matrix is singular, and the result is nevertheless the product of the pivots found until then (1 for the identity of order 5 with its last element replaced by 0). Because a pivot is only replaced when it is zero, |L| and |U| can be large: for a matrix with elements of size at most 1 and determinant 1 - 2^-60 the result is -1.", "quantifier": "all matrices of doubles of every order from 5, all views of them, all comparison tolerances up to 1/4", "why_tests_cant": "Rounding errors depend on the bits of all elements, and the error of an elimination on all of its steps.", "anchors": ["include/malg/linalg.hpp: determinant", "include/malg/feq.hpp: approximately_equal_to_zero"]}
{"id": "C115", "title": "Change of state coordinates", "statement": "Two state-space models of the same system agree. If the states of the second are T times the states of the first, with T S = 1 (A' = T A S, B' = T B, C' = C S, D' = D), then in exact arithmetic: trace, poly and determinant (order at most 4, or not singular) return the same results for A and A', ctrb returns T times and obsv the product with S of the first result, simulate from T times the initial state gives the same times and outputs and T times each state, and acker for the same poles returns the first gain times S (order at most 5, controllable pair). If the second system is the first with its states renumbered, expm and c2d end in the same way on both and return the renumbered matrices (order at most 4).", "quantifier": "all systems and all invertible changes of coordinates over any commutative ring (ctrb, obsv, trace, simulate) or field (determinant, poly, acker), all input sequences and numbers of steps; for expm and c2d all permutations of the states over every archimedean ordered field", "why_tests_cant": "The change of coordinates ranges over all invertible matrices; a test can only compare a few of them, and only up to rounding.", "anchors": ["include/malg/control/control.hpp: ctrb", "include/malg/control/control.hpp: obsv", "include/malg/control/control.hpp: poly", "include/malg/control/control.hpp: acker", "include/malg/control/control.hpp: simulate", "include/malg/control/control.hpp: c2d", "include/malg/linalg.hpp: expm", "include/malg/linalg.hpp: determinant", "include/malg/linalg.hpp: trace"]}
{"id": "C116", "title": "Objects of StateSpace and DiscreteStateSpace", "statement": "A model built from four matrices, or copied from another model, has equal matrices and the given sample time; a default constructed one has empty matrices and sample time 0. Assigning (by copy or move) a model whose four matrices all have elements gives an equal model, whatever the target held. An empty matrix of the source is not assigned: the target keeps its old one. So after any sequence of assignments each matrix of a variable is the last assigned one that was not empty. A moved-from model keeps its dimensions but its elements cannot be read.", "quantifier": "all models over every element type, all sequences of copy, move and self assignments and changes of the sample time", "why_tests_cant": "The state of a variable depends on its whole history of assignments; a test only replays a few.", "anchors": ["include/malg/control/control.hpp: StateSpace", "include/malg/control/control.hpp: DiscreteStateSpace", "include/malg/matrix.hpp: Matrix::operator=", "include/malg/vector.hpp: Vector::Vector"]}
{"id": "C117", "title": "Runs of a closed loop with the gain of acker", "statement": "Let K be the gain that acker returns for a controllable single-input system of order at most 5, and simulate the system with A - B K in place of A, in exact arithmetic. If all the requested poles are 0, the state from step n on does not depend on the initial state. If the requested poles lie strictly between -1 and 1, two runs with the same inputs come arbitrarily close to each other after a number of steps that depends only on how far apart they start, and without input the state tends to 0.", "quantifier": "all controllable systems up to order 5 over any field (dead-beat) or archimedean ordered field, all requested real poles, initial states, input sequences and numbers of steps", "why_tests_cant": "Convergence is a statement about runs of unbounded length, from every initial state.", "anchors": ["include/malg/control/control.hpp: acker", "include/malg/control/control.hpp: simulate", "include/malg/control/control.hpp: ctrb", "include/malg/control/control.hpp: poly"]}
{"id": "C118", "title": "Runs of a discretised system against the exact solution", "statement": "Discretise a continuous system with an invertible A of order at most 5 by c2d and simulate it, in exact arithmetic with exact comparisons. At every sample time the simulated state is within e r (1 + (h+e) + ... + (h+e)^(k-1)) of the solution of x' = A x + B u with the input held between samples, where e bounds the terms of the exponential series that expm leaves out, h bounds exp(A ts) and r bounds the distance of the solution from the equilibria of its inputs. When h + e < 1 the distance never exceeds e r/(1 - (h + e)).", "quantifier": "all systems up to order 5 with invertible A over an archimedean ordered field, all sample times, accuracies, input sequences, initial states and numbers of steps", "why_tests_cant": "The bound concerns runs of every length and the limit of an infinite series.", "anchors": ["include/malg/control/control.hpp: c2d", "include/malg/control/control.hpp: simulate", "include/malg/linalg.hpp: expm"]}
{"id": "C119", "title": "The norms obey the laws of norms", "statement": "In exact arithmetic, for real elements and, once their templates compile, for complex ones: square_norm and infinity_norm of vectors and matrices are 0 only for zero elements, a sum is never longer than its terms together, a multiple is longer by the absolute value of the factor, the norm of a product of matrices or of a matrix and a vector is at most the product of the norms, and |dot(a, b)| is at most the product of the square norms of a and b. The two norms bound each other. projection(a, b) is never longer than a, and a, projection(a, b) and their difference form a right triangle. Multiplying by a matrix with orthonormal (unitary) columns keeps the square norm.", "quantifier": "all vectors and matrices of all sizes, over any real closed field and the complex numbers over it", "why_tests_cant": "The laws are inequalities between results for all pairs of arguments of every size.", "anchors": ["include/malg/math.hpp: square_norm", "include/malg/math.hpp: infinity_norm", "include/malg/math.hpp: dot", "include/malg/math.hpp: projection"]}
{"id": "C120", "title": "What happens to Vectors when memory runs out", "statement": "Run any legal program of Vector operations with an allocator that may refuse any request and that keeps or moves blocks as it likes. The program is undefined or observes exactly what it would observe with enough memory; no operation ever throws. If no request is refused the run is defined, memory is in order and all values are right. A refused request of a constructor, of an assignment from a Vector of another size or of a resize to more elements is undefined behaviour at once. A refused request of a resize to fewer elements passes unnoticed: size() reports the new size, every access to the Vector and every copy of it is undefined, and its old block stays allocated whatever the program does afterwards. Operations that keep the number of elements or make it 0 request nothing. A size whose byte count is 2^64 or more is undefined in the constructors and in a growing resize, whatever the allocator does.", "quantifier": "all finite histories of Vector operations, all element sizes up to 32 bytes, and all answers of the allocator to each request", "why_tests_cant": "A test cannot refuse each request of each history, and the lost block is a statement about all continuations.", "anchors": ["include/malg/vector.hpp: allocate", "include/malg/vector.hpp: resize", "include/malg/vector.hpp: operator="]}
{"id": "C121", "title": "What ctrb and obsv say about runs of simulate", "statement": "Over any field. From the zero state every state of every run is ctrb(A, B) times a vector, and any such vector can be added by inputs to the free motion after n or more steps. If ctrb(A, B) has rank n (the number of states) some inputs lead from any state to any state in any number of steps from n on; otherwise some state is in no run from the zero state, whatever the inputs and the length. Two runs with the same inputs and at least n outputs have equal outputs exactly if obsv(A, C) sends their initial states to the same vector. If obsv(A, C) has rank n the first n outputs determine the initial state; otherwise two different initial states give equal outputs for all inputs. The response to a unit impulse is D, CB, CAB, CA^2B, ... For any element type, a run on inputs u1 followed by u2 is the run on u1 continued by the run on u2 from its last state.", "quantifier": "all systems over all fields, all numbers of states, inputs and outputs, all initial states, all input sequences and all lengths", "why_tests_cant": "Reachability and observability quantify over all inputs and all lengths of runs; unreachable states in particular cannot be found by trying inputs.", "anchors": ["include/malg/control/control.hpp: ctrb", "include/malg/control/control.hpp: obsv", "include/malg/control/control.hpp: simulate"]}
{"id": "C122", "title": "Vectors whose elements are objects with their own assignment", "statement": "Vector gets raw memory from realloc and only ever assigns into it. If the element type's assignment simply replaces the value (arithmetic types, std::complex), programs behave exactly as in C01 and C02. If the element is a class whose assignment may only be called on a constructed object (Vector, Matrix, std::string, ...), the sized, filled and list constructors with at least one element are undefined, so is growing a Vector, and every defined program with such Vectors only ever has empty ones: each size it observes is 0 and it never allocates.", "quantifier": "all element types and assignment operators of either kind, all allocators, all programs, sizes and contents", "why_tests_cant": "A test of Vector<Vector<T>> may seem to pass because fresh memory often happens to be zero; that no program has a defined non-empty one is a statement about all histories.", "anchors": ["include/malg/vector.hpp: allocate", "include/malg/vector.hpp: deallocate", "include/malg/vector.hpp: Vector", "include/malg/vector.hpp: operator=", "include/malg/vector.hpp: resize"]}
{"id": "C123", "title": "Simulations cannot look ahead, whatever the shapes", "statement": "simulate is the division of the duration by the sample time, its conversion to a number of steps, and then one simulate_step per input in order: it returns their states and outputs and the times 0, ts, ts+ts, ... with a final 0, and it fails exactly as the first failing part does. So two runs whose first k inputs agree have the same first k outputs and the same states up to there; running on a beginning of the inputs or for a shorter time gives the beginning of the run; a run on u1 followed by u2 is the run on u1 continued from its last state; and a run that fails does so in one definite step, all runs on the inputs before it succeeding. None of this needs the system's matrices, inputs or initial state to have matching shapes.", "quantifier": "all element types, all systems with matrices of any shapes, all initial states, all input sequences of any lengths, all durations and all conversions of the duration", "why_tests_cant": "Causality compares all pairs of runs with a common beginning, of any length, including the ones that fail.", "anchors": ["include/malg/control/control.hpp: simulate", "include/malg/control/control.hpp: simulate_step"]}
{"id": "C124", "title": "QR, solve and the eigenvalue functions across number systems", "statement": "Whenever the elements, square roots and copysign of two number systems correspond, qr_decomposition and solve of corresponding operands end the same way with corresponding results, and so do hessenberg, qr_factorise_givens, QRHessenberg (for corresponding shifts) and eigenvectorUpper. In particular: an order-preserving embedding of one real closed field in another commutes with qr_decomposition and solve; hessenberg, qr_factorise_givens and eigenvectorUpper of the conjugate of a complex matrix return the conjugates of their results for the matrix; of a real matrix they return real matrices; and QRHessenberg leaves the real numbers only if a shift is complex.", "quantifier": "all pairs of element types and correspondences between them, all real closed fields, all matrices of any shape, all thresholds, shifts and numbers of passes", "why_tests_cant": "The statements compare the function on all operands in two number systems, or on all matrices and their conjugates.", "anchors": ["include/malg/linalg.hpp: qr_decomposition", "include/malg/linalg.hpp: solve", "include/malg/eigen.hpp: hessenberg", "include/malg/eigen.hpp: qr_factorise_givens", "include/malg/eigen.hpp: QRHessenberg", "include/malg/eigen.hpp: eigenvectorUpper"]}
{"id": "C125", "title": "How far QR of doubles is from the exact factors", "statement": "Run qr_decomposition on pairs of a centre and an error bound (rational numbers). If that run returns, so do qr_decomposition of the doubles and that of their exact values in any real closed field, with the same shapes, and wherever the run ends with a bound, the double is finite and within twice the bound of the exact element. For a matrix with independent columns and at least as many rows as columns all three return, and the exact factors are an orthogonal Q and an upper triangular R whose product is the matrix: so if no bound exceeds eps, every element of the computed factors is within 2 eps of those of a true QR decomposition.", "quantifier": "all finite matrices of doubles of any shape, all real closed fields, all tolerances and all bounds; qr_decomposition as repaired for C96", "why_tests_cant": "The exact factors are irrational, so a test can neither compute them nor see the rounding errors of every matrix.", "anchors": ["include/malg/linalg.hpp: qr_decomposition"]}
{"id": "C126", "title": "A whole program in another arithmetic", "statement": "Take a program: any sequence of matrix statements (constructors, copies, moves, assignments, resizing, reshaping, views, in-place and new sums, differences, products, scalings, transposes, reads, caught exceptions). Run it in two number systems whose zero, one, sum, difference, product and negation correspond. Both runs have the same outcome, exceptions are thrown at the same statements, and variables and values read correspond. So applying a homomorphism to the constants of the program is applying it to its results; a program with unsigned integers of w bits gives the low w bits of what mathematical integers give; one with signed integers gives the mathematical value wherever no overflow has gone into it; and for a program with finite doubles, if the run on centres with error bounds returns, each value that has a bound is finite and within the bound of the exact one.", "quantifier": "all programs of any length, all pairs of number systems related by a ring correspondence, all widths, all finite constants, all tolerances", "why_tests_cant": "A test runs one program on one type; it cannot compare every program across all number systems, nor see where a long program exceeds the range of a type.", "anchors": ["include/malg/matrix.hpp: Matrix", "include/malg/matrix.hpp: operator=", "include/malg/matrix.hpp: resize", "include/malg/matrix.hpp: reshape", "include/malg/math.hpp: operator+", "include/malg/math.hpp: operator-", "include/malg/math.hpp: operator*", "include/malg/math.hpp: element_wise_product", "include/malg/linalg.hpp: transpose"]}
{"id": "C127", "title": "How far inverse and solve of doubles are from the exact answers", "statement": "Run inverse or solve on pairs of a centre and an error bound, where a determinant counts as non-zero only if its bound makes that certain. If such a run of inverse does not end with the empty matrix, the exact matrix is invertible, inverse of the doubles returns, and wherever the run ends with a bound, the double is finite and within twice the bound of that element of the true inverse. If such a run of solve does not end with the empty vector, solve of the doubles returns and is in the same sense close to the unique solution (as many equations as unknowns, and then the matrix is invertible), to the least squares solution (more equations, independent columns), or to the shortest solution (more unknowns, independent rows).", "quantifier": "all finite matrices and right-hand sides of doubles, of order up to 4 (the smaller of rows and columns; the other one is not bounded), all real closed fields, all tolerances that are positive and at most 1/4; solve and qr_decomposition as repaired for C96", "why_tests_cant": "The exact answers are rational or irrational numbers that doubles cannot hold, and no set of tests covers all matrices, in particular nearly singular ones.", "anchors": ["include/malg/linalg.hpp: inverse", "include/malg/linalg.hpp: solve", "include/malg/linalg.hpp: qr_decomposition", "include/malg/linalg.hpp: adjoint", "include/malg/linalg.hpp: determinant"]}
{"id": "C128", "title": "Matrices own their memory: no bad access, no leak, in any history", "statement": "Take any program that constructs, copies, moves, assigns, resizes, reshapes, edits, multiplies and destroys matrices and views of them, at the level of pointers and blocks of memory. It is undefined exactly when the same program on plain tables of numbers uses an element or a matrix that is not there (or asks for an impossible size). Otherwise every access is to a live block of the matrix itself, no two matrices share a block, every live block belongs to a matrix, and the matrices hold the numbers they should, wherever the allocator puts the blocks. Once all matrices are destroyed no block is left, not even one of a temporary. A statement that throws leaves the memory as it was. A matrix that was moved from still reports its old shape, but reading any element of it is undefined.", "quantifier": "all finite sequences of these statements on any number of matrices and any nesting of views, all element types, all shapes, all allocators that serve or do not serve a request by its size alone", "why_tests_cant": "Leaks, double frees and stale pointers depend on the whole history, on aliasing between a matrix and its views, and on whether realloc moves a block.", "anchors": ["include/malg/matrix.hpp: Matrix::Matrix", "include/malg/matrix.hpp: Matrix::operator=", "include/malg/matrix.hpp: Matrix::resize", "include/malg/matrix.hpp: Matrix::reshape", "include/malg/vector.hpp: Vector::allocate", "include/malg/vector.hpp: Vector::deallocate", "include/malg/view.hpp: View::operator=", "include/malg/utility.hpp: swap_rows", "include/malg/utility.hpp: swap_cols", "include/malg/utility.hpp: remove_row", "include/malg/utility.hpp: remove_column", "include/malg/math.hpp: operator+=", "include/malg/math.hpp: operator-=", "include/malg/math.hpp: operator*="]}
{"id": "C129", "title": "Threads that keep to their own vectors and matrices do not disturb each other", "statement": "Let several threads run at the same time, each changing, constructing and destroying only vectors of its own and reading only those and shared ones. If each of them alone breaks no precondition, then under every schedule, and wherever the allocator places blocks, the memory stays in order, no thread meets undefined behaviour, no two threads are ever about to use a vector that one of them changes, every thread gets the result it gets alone, every schedule ends after as many steps as the threads have statements, and the vectors end with the contents their owners alone leave in them. The same holds for threads that use matrices and views of them, one statement at a time. If a thread writes to a shared vector, what another one reads depends on the schedule.", "quantifier": "all numbers of threads, all programs whose next statement depends in any way on what they have seen, all schedules, all behaviours of the allocator, all element types", "why_tests_cant": "The number of schedules is exponential in the length of the programs, and a test run sees one of them.", "anchors": ["include/malg/vector.hpp: Vector", "include/malg/matrix.hpp: Matrix", "include/malg/feq.hpp: tolerance"]}
{"id": "C130", "title": "What happens to matrices when memory runs out", "statement": "Run any legal program on matrices and views with an allocator that may refuse any request. The program is undefined, or all its matrices have the right numbers of rows and columns and no element that can be read is wrong. If no request is refused, the run is defined, memory is in order and all matrices are right. A refused request of a constructor, a copy, an assignment of a non-empty matrix, a resize that changes the number of columns or needs more elements, remove_column or *= is undefined behaviour at once; no exception is thrown. A refused request of a resize to fewer rows, and so of remove_row, passes unnoticed: the matrix reports its new size, every access to an element, through any view, and every copy of it is undefined, and its old block stays allocated whatever the program does afterwards.", "quantifier": "all finite programs of matrix statements, all answers of the allocator to each request, all element types of up to 32 bytes", "why_tests_cant": "A test cannot refuse each request of each program, and the lost block is a statement about all continuations.", "anchors": ["include/malg/matrix.hpp: Matrix::operator=", "include/malg/matrix.hpp: resize", "include/malg/vector.hpp: allocate", "include/malg/utility.hpp: remove_row", "include/malg/utility.hpp: remove_column"]}
{"id": "C131", "title": "Threads when memory runs out", "statement": "Let several threads run at the same time, each changing, constructing and destroying only vectors of its own and reading only those and shared ones, and let the allocator refuse any request of any of them. Whatever the schedule, the program is undefined or every thread that ends has the result it has alone with enough memory: a statement of a thread is undefined behaviour or succeeds, it never throws. If no request is refused, no thread meets undefined behaviour, the memory stays in order and the vectors end with the contents their owners alone leave in them. A thread whose own requests are served is not harmed by requests refused to others: unless another thread meets undefined behaviour, each of its statements succeeds, and its vectors end with the contents it leaves in them alone.", "quantifier": "all numbers of threads, all programs whose next statement depends in any way on what they have seen, all schedules, all answers of the allocator to each request, all element types of up to 32 bytes", "why_tests_cant": "A test run sees one schedule and one pattern of refusals.", "anchors": ["include/malg/vector.hpp: Vector", "include/malg/vector.hpp: allocate", "include/malg/vector.hpp: resize", "include/malg/vector.hpp: operator="]}
