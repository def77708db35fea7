# Formal model of TAT (tensor library) in Rocq / Coq 8.16.1

Subject: `/repo` (hzhangxyz/TAT, C++17 header-only).  The code is read as text; nothing is compiled or run.

## Layout

    rocq/theories/
      Base/      outcome type, list and arithmetic lemmas, ordered association maps (std::map)
      Model/     executable model, one definition per C++ function, each with a file:line citation.  No proofs.
      Spec/      small independent specifications (what the English property says)
      Proof/     lemmas, and the concrete objects used in examples and refutations
      Props/     one file per group of properties; each theorem closed by `exact`, followed by
                 Print Assumptions, with an Example showing a concrete case satisfying its hypotheses
    properties.jsonl   the English properties;  MANIFEST.json  property -> theorems, status, note
    seeded/LOG.jsonl   mutation tests: an edit of the model, the claim it breaks, what failed to prove

Theorem names: `Cxx_...` proves property Cxx or a part of it, `..._partial` says the property under an extra condition,
`..._refuted` is the negation of the property (or a witness against it) in the faithful model.

## Conventions of the model

* Outcomes (Base/Outcome.v).  `Ok v` normal return, `Throw e` a C++ exception (runtime_error from TAT_error, out_of_range from
  `.at`), `UB` undefined behaviour (out-of-bounds access, null dereference, using an uninitialised or indeterminate value where
  that matters, signed overflow, violated `__restrict`), `OutOfFuel` for loops without a bound in the code.
  A theorem that concludes `= Ok ...` therefore says that the call does not throw, is defined and terminates.
* TAT_error is modelled as throwing (the default configuration, TAT.hpp); TAT_warning_or_error as continuing.
* `Size`/`Rank` are unbounded `nat` (or Z); programs whose sizes exceed 2^64 (resp. 2^16 for ranks) are outside the model.
  Machine-integer wrap-around is explicit where a property is about it (16-bit Fermi numbers, 32-bit U1, uint64 arena sizes, the
  int arithmetic of the matrix exponential, byte formats).  Narrowing of Size to int for BLAS/LAPACK is not modelled.
* `std::map` is a list of pairs sorted by key; `operator[]`, `at`, `find`, `erase` are modelled on it (Base/SMap.v).
* Scalars are abstract: operations `Scalar R` plus, where a theorem needs them, laws as hypotheses of the theorem.
  Floating-point rounding is therefore not modelled: theorems about sums are about exact arithmetic.
* Names are natural numbers (the id of a FastName); their order is the order of ids.  Names.v has the interning table itself.
* Symmetry kinds are instances of a class of operations `Sym` with a separate class of laws `SymLaws`, proved for all six kinds.
* Uninitialised memory of new tensors is a parameter (`env_junk`); a theorem that does not mention it holds for every content.
  The uninitialised arrow of a merged edge without fermionic charge is a parameter of the environment as well.
* Timers, scope_resource arenas inside algorithms, and warnings printed to stderr do not influence results and are omitted
  there; they have their own models.

## What is modelled

| Model file | Code |
|---|---|
| Symmetry.v | symmetry.hpp completely (six kinds, parities of transposition, reversal, split and merge) |
| Edge.v | edge.hpp: edge construction, conjugation, loop_edge, initialize_block_symmetries_with_check |
| Core.v | core.hpp constructor, tensor constructors, name.hpp checks, get_item.hpp (at, const_at), transform, zero |
| Transpose.v | transpose.hpp: noone-merging, both kernels, matrix_transpose |
| EdgeOperator.v | edge_operator.hpp completely, edge_miscellaneous.hpp (rename, transpose, merge, split, reverse) |
| Contract.v | contract.hpp, both variants, gemm and gemm_batch as exact products |
| Trace.v, Misc.v, Elementwise.v | trace.hpp; tensor_miscellaneous.hpp (multiple, conjugate, identity); scalar.hpp, set, test, norm |
| ShrinkExpand.v, Exponential.v | shrink_and_expand.hpp; exponential.hpp |
| Qr.v | qr.hpp: calculate_qr and its kernels, Tensor::qr |
| Svd.v, SvdCut.v | svd.hpp: Tensor::svd with its kernels; the selection of the values kept |
| Cow.v | sharing of cores between tensors: use counts, copy on write, references (tensor.hpp, get_item.hpp, scalar.hpp) |
| Arena.v, Scopes.v, Timer.v | pmr_resource.hpp, timer.hpp |
| Names.v, Binary.v, Text.v | name.hpp tables; io.hpp binary and text formats; square/abstract_lattice.hpp dump and load |
| Mpi.v | mpi.hpp: send, receive, broadcast, reduce, barrier-free, on FIFO channels with any buffering |
| Lazy.v | lazy.hpp: roots, paths, nodes, graph dump and load |
| Schedule.v, SimpleUpdate.v | square/simple_update_lattice.hpp |
| Auxiliaries.v | square/auxiliaries_system.hpp: the tensors of the nodes and operator(), without the laziness |
| BinaryNetwork.v | dump and load of square/abstract_network_lattice.hpp, simple_update_lattice.hpp, exact_lattice.hpp, sampling_gradient_lattice.hpp |
| Spins.v | square/sampling_gradient_lattice.hpp: SpinConfiguration, initialize_spin, the gradient of markov |
| NetworkNew.v | the constructors with sizes of square/abstract_network_lattice.hpp, simple_update_lattice.hpp and exact_lattice.hpp; the random generator is any function with a state |
| SpinOperators.v | square/basic.hpp: Sx, Sy, Sz, SxSx, SySy, SzSz, SS; square/abstract_lattice.hpp: set_all_site, set_all_vertical_bond, set_all_horizontal_bond; a shared pointer to an operator is a value of any type |
| Seeds.v | square/basic.hpp: get_seed, seed, split_seed, merge_seed; std::default_random_engine and std::uniform_int_distribution as in libstdc++; MPI_Bcast is Mpi.broadcast, random_device a parameter |
| SimpleTensor.v, Exact.v | square/simple_update_lattice.hpp: the tensors of one term; square/conversion.hpp; square/exact_lattice.hpp without input and output |
| Statistics.v | square/sampling_gradient_lattice.hpp: the variances of markov, the energy of a step |
| Evolution.v | square/simple_update_lattice.hpp: the operators made by update |
| Sampling.v | square/sampling_gradient_lattice.hpp: configurations, tables of elements, ergodic and Markov sampling |

Simplifications are stated in the comment of each definition.  The main ones:

* one scalar type per operation (no mixed-type arithmetic or contraction);
* gemm sums in increasing order; xGESV is a routine that solves systems with an invertible matrix, xGEQRF, xGELQF, xORGQR,
  xORGLQ and xGESVD factor matrices as documented whenever they report success (Spec/Lapack.v, Spec/Svd.v; hypotheses of the theorems);
* binary format: little endian, LP64, padding bytes are a constant, memory is unlimited; text: libstdc++ streams in the C locale,
  the codec of floating point numbers is a parameter with its round-trip law as a hypothesis;
* sets of pairs are lists in the order of iteration;
* MPI: messages between two processes arrive in order, nothing is lost; every interleaving and every buffering choice is allowed;
* lazy nodes: user functions are pure and total, one value type, arguments evaluated left to right;
* simple update: the tensor operations of a bond are total functions given as parameters; MPI_Barrier is left out (more interleavings);
* sampling: the amplitude is a function of the configuration, random numbers are ideal, real numbers are exact (Coq's Reals);
* auxiliaries: a node is the value of its function, computed where it is used (Lazy.v is about when it is computed);
* Cow: one thread, addresses are not reused, memory is unlimited;
* allocator: the upstream memory resource is an oracle returning fresh, 16-aligned memory.

Not modelled: BLAS/LAPACK internals, the MPI runtime, floating-point rounding, the Python bindings (PyTAT/), the Python version
of the lattice code (square/), propagate_const, console handling on Windows, the non-default
macros (TAT_USE_SINGULAR_MATRIX with singular_to_tensor, TAT_USE_SIMPLE_NAME except where stated, TAT_L3_CACHE variants of the kernel).

## Outcome per property

Proved in full: C01-C05, C07-C09, C11-C15, C19-C22, C24, C26-C28, C31, C33-C37, C40-C44, C46-C49, C57, C64-C66, C68-C73, C75-C78, C80-C82, C85, C87, C89, C90, C96-C98.
Partial (false of the code as stated, or proved under a condition): the others; MANIFEST.json says what is missing for each.

### Findings (properties that are false of the code)

* C06  The transpose kernel reads position -1 of its stride tables exactly when the whole block is one contiguous run
  (transpose.hpp); the value read is never used for the result.
* C10  `is_same_vector` (edge_operator.hpp) does not compare element 0: `transpose` accepts a list of names that differs from
  the tensor's in the first entry only, including a repeated name.
* C16, C60, C61  Contraction, trace and exponential over several pairs of symmetric edges pair different states: the tuples of a
  merged edge are laid out in ascending order of charges, so for charges that are not their own opposite (U1, Fermi) the
  merged edges of both sides are laid out differently.  (C16 for contraction of tensors with two pairs, C60 trace, C61 exponential.)
* C99  As a consequence of C16, `t.contract_all_edge()` of a tensor with integer charges on several edges is not the sum of the squares
  of its elements: two elements 1 and 2 give 4, with fermions -4.
* C17  A charge present on one side of a contracted pair only makes contraction throw out_of_range when all blocks using a
  merged charge vanish.
* C18  trace dereferences `blocks.begin()` of an empty map when no block has opposite charges on the paired edges.
* C23  `identity` of a symmetric tensor of rank 4 or more writes ones outside of the diagonal of blocks that are not diagonal.
* C24  `shrink` and `expand` never compare an index with the dimension: an index out of range selects another slice.
* C25  `expand` never accumulates the total charge: an edge of non-zero charge is always refused, and charges that do not
  add up to zero write through `blocks.begin()` of an empty map; `shrink` over several edges with different charges fails as C16.
* C29  Text: a rank-one tensor with an empty name and a name of more than 255 characters cannot be read back.
* C30  Text: the colour escapes contain '[', the reader of symmetric blocks loops for ever (Z2, U1, Fermi).
* C32  A lazy node created after `dump` and read before `load` keeps its stale value.
* C38  Truncated SVD chooses the neutral charge once the positive values are used up, whether or not it has values left.
* C39  matrix_exponential: the zero matrix is undefined behaviour; magnitudes in [2^30, 2^31) give the exponential of the
  opposite matrix (1 << 31 is negative); larger ones shift too far.
* C45  An operator with a zero row makes sampling throw out_of_range.
* C50  Indices of elements are not checked against the dimensions.
* C51  Contraction of plain edges of different dimensions is not reported (undefined in one order of the operands).
* C52, C59  Loading a table of names replaces the present one: names made since become dangling; dumps of interned names only hold numbers.
* C53  Arena: an empty request may alias the next allocation, alignments above 16 are not honoured.
* C54  The simple update ignores the order of the sites of a term.
* C55  Ergodic sampling divides by a zero amplitude.
* C56  Elements of an operator are cached under the address of its tensor.
* C58  A truncated dump is loaded without an error.
* C62  `t op= t` and `t op= t.const_at(p)` violate `__restrict`.
* C63  A reference to an element kept while the tensor is copied writes into the copy.
* C67  A group of fermionic edges without fermionic charges is fused into an edge whose arrow is never initialised
  (edge_operator.hpp); contraction copies it to the remaining edges, and a further contraction over them is refused with
  "Different Fermi Arrow to Contract" or not, depending on the garbage.
* C74  When xGESVD reports a failure, svd prints a warning (TAT_warning_or_error_when_lapack_error is a warning by default) and returns
  whatever the buffers contain; qr throws in the same situation.
* C79  SpinConfiguration::set returns at once when the spin is the present one: after a tensor of the lattice was replaced, as the gradient
  descent of examples/heisenberg.cpp does with all tensors in every step, sites whose spin does not change keep the tensor cut from the old one.
* C83  ExactLattice::denominator and observe contract the vector with itself without conjugating it: for complex scalars the vector (1, 2i)
  and the projection onto spin 0 give -1/3 instead of 1/5.
* C84  ExactLattice::update returns a - |a - E| as the energy, a = |approximate energy| times the number of sites: wrong if E is above a.
* C86  (C54 seen from the wave function) With the positions of a term in the order right/left or lower/upper the simple update still puts the
  first index of the operator on the left or upper site; ExactLattice uses the order of the positions.
* C88  Contracting symmetric tensors over several pairs of edges drops the charges that no block of the result uses from its edges (the group
  is merged and split again); a further contraction over such an edge throws std::out_of_range (C17), while the other order of the two
  contractions gives the result.  Z2 witness with edges of dimension 1+1.
* C91  split_seed seeds the engines with consecutive numbers; std::default_random_engine of libstdc++ takes seeds modulo 2^31 - 1 and replaces
  zero by one, so that a process whose seed is a multiple of 2^31 - 1 has the engine of the next process.  Reached by seed(1475608308).
* C92  Sy is written with row I and column O, but the updates contract I with the state: Sy acts transposed, and Sx, Sy, Sz satisfy the algebra of
  spins with -i.  The sampling reads operators with I as the row.  Both readings agree for symmetric operators such as SS; for complex
  Hermitian ones (a field along y, Sx Sy - Sy Sx) an update evolves with the conjugate of what sampling measures.
* C93  the gradient from samples tends to the derivative of the energy only if no configuration of amplitude zero would gain amplitude and is
  reached by the Hamiltonian: such configurations are never sampled, their share of the derivative is missing.  Witness: one site with
  amplitudes 0 and 1 and a Hamiltonian that flips the spin; the derivative is 2, the gradient 0 for any number of samples.
* C94  the squared error returned by Markov sampling is right on average for independent samples only.  The samples of the chain are correlated
  (in a chain that cannot hop the error is 0); the error printed for the energy adds the squared errors of the terms without their
  covariances; one step gives 0 / 0.
* C95  a simple update with the time step 0, or with a term whose elements are all zero, converts the logarithm of zero to int (C39), which is undefined behaviour.

Smaller observations that no property is about: merge groups with repeated names are not rejected; edge_rename does not check for
duplicates (C46 states the condition); arithmetic of fermionic tensors ignores the arrows of the second operand (C19); `multiple` with an
unknown name returns the tensor unchanged (C21); with one process broadcast does not check the root (C33); tensor op= tensor
with a missing block leaves the left side half done; contracting two symmetric tensors with equal free names is reported as duplicated
names instead of fused; after a simple update the new environment can contain zeros (singular values that vanish), by which later steps on neighbouring bonds divide
(C85 states the condition); square::conj calls a member function that std::complex does not have (basic.hpp:56-63);
`std::pow` used for the number of configurations is inexact from 2^53 on (C44).

## Trusted base

* Coq's kernel (with vm_compute, which the examples and witnesses use).
* `Print Assumptions` of every property theorem: "Closed under the global context", except the following theorems of
  Props/C43_C57_sampling.v, which use Coq's real numbers and depend on the standard-library axioms
  `ClassicalDedekindReals.sig_forall_dec` and `FunctionalExtensionality.functional_extensionality_dep`:
  C43_term_detailed_balance, C43_sweep_detailed_balance, C43_stationary, C43_amplitude, C45_measures_always_refuted, C45_hop_zero_row,
  C55_exact_refuted, C55_exact_partial, C57_never_nan, C57_unbiased (both axioms), C45_measure_zero_row and C45_measures_partial (the first).
  So do the theorems of Props/C93_gradient.v and the theorems of Props/C94_errors.v (both axioms), as well as those of Props/C92_measured.v.
  C98_norm depends on both axioms and on `ClassicalDedekindReals.sig_not_dec` (square roots).  No axiom is declared in this development.
* The correspondence between /repo and the definitions in Model/ (manual reading; cited line by line).
* The hypotheses named under "What is modelled" on routines outside the library (BLAS, LAPACK, MPI, allocator, streams).

## Mutation tests

seeded/LOG.jsonl records every seeded bug: definition, edit, the claim it breaks, the first statement that fails, the property
theorems lost.  Where a mutant survived, the theorem was tightened and the entry says so.
