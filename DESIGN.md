# Formal model of `utlvce` in Coq 8.16.1

The code is modelled function by function in `rocq/theories`. The properties are in
`properties.jsonl`, their status in `MANIFEST.json`, the mutation tests in `seeded/LOG.jsonl`.

## Layout

| file | content |
| --- | --- |
| `Base.v` | exceptions as values (`res`), square matrices as lists of rows, list lemmas |
| `GraphModel.v` | the graph functions of `utils.py` |
| `ListModel.v` | the list utilities of `utils.py` (combinations, partitions, splitting, ...) |
| `NumModel.v`, `NdModel.v`, `HeapModel.v` | `Model`: the arithmetic; the input checks on arrays of any shape; which arrays are shared |
| `ScoreModel.v` | `score.py`: cache, gradient descent, solvers, initialisation, `score_dag` |
| `MainModel.v` | `main.py`: pruning, model selection, scree plot, `_fit`, the two entry points |
| `FullModel.v` | `main.py`: `_fit` with `ges_env`, `ges_phases`, `ges_lambdas`, `store_history` |
| `FloatModel.v` | `utils.py`: `split_data` with ratios that are floats |
| `FrontModel.v` | `main.py`: `_fit` on any value of `data`, up to the first `Score` object |
| `AliasModel.v` | `main.py`, `score.py`: `_prune_graphs`, `score_dag` and the cache on adjacencies that are changed in place |
| `MemModel.v` | `utils.py`: the graph functions that change arrays, on a memory |
| `InitModel.v` | `score.py`: `_initialize_B`, `_initialize_gamma`, `_initialize_omegas` with `init` |
| `GenModel.v` | `generators.py` and `Model.scaled_latent_incoherence` |
| `CovModel.v` | `np.cov` |
| `ShapeModel.v` | shapes of the arrays of sample covariances: `Score.__init__`, `Model.sample`, the unpacking of the shape in `_initialize_*` |
| `UtilModel.v`, `UtilNumModel.v` | `delete` and `normalized_var` of `utils.py`, which nothing calls |
| `GraphSpec.v`, `ListSpec.v`, `NumSpec.v`, `ArraySpec.v`, `HeapSpec.v`, `CacheSpec.v`, `ScoreSpec.v`, `MainSpec.v`, `GenSpec.v`, `GradSpec.v`, `OptSpec.v`, `TermSpec.v`, `RenameSpec.v`, `UtilSpec.v`, `UtilNumSpec.v`, `DescentSpec.v`, `CovSpec.v`, `NumsLatentSpec.v`, `FullSpec.v`, `InitSpec.v`, `AliasSpec.v`, `IdentSpec.v`, `RefineSpec.v`, `LimitSpec.v`, `CostSpec.v`, `NamesSpec.v`, `ShapeSpec.v`, `WeightSpec.v`, `DrawSpec.v`, `ClassNamesSpec.v`, `CandSpec.v`, `StatSpec.v`, `MemSpec.v`, `LeakSpec.v`, `WCandSpec.v`, `ScreeUnitSpec.v`, `ExactSpec.v`, `NestSpec.v`, `SingleSpec.v`, `FixedSpec.v`, `MemberSpec.v`, `BoundSpec.v`, `AgainSpec.v`, `MoreSpec.v`, `FrontSpec.v`, `FloatSpec.v`, `IncoSpec.v`, `MetricSpec.v`, `BasisSpec.v` | the notions the theorems are stated in, written without the model's helpers |
| `*Proofs.v` | lemmas; the first line of each says on what. `WitnessProofs`, `RunProofs`, `Run2Proofs`, `MainRunProofs`, `SeedProofs`, `GenRunProofs`, `Grad2Proofs`, `Bsolve4Proofs`, `LimitRunProofs` hold the concrete runs that refute claims |
| `PropGraph1-3.v`, `PropMax.v`, `PropList.v`, `PropNum.v`, `PropScore.v`, `PropMain.v`, `PropGen.v`, `PropGrad.v`, `PropOpt.v`, `PropTerm.v`, `PropEquiv.v`, `PropRename.v`, `PropUtil.v`, `PropUtilNum.v`, `PropDescent.v`, `PropFold.v`, `PropCov.v`, `PropNumsLatent.v`, `PropFull.v`, `PropInit.v`, `PropAlias.v`, `PropIdent.v`, `PropRefine.v`, `PropLimit.v`, `PropCost.v`, `PropNames.v`, `PropShape.v`, `PropWeight.v`, `PropWeight2.v`, `PropDraw.v`, `PropClassNames.v`, `PropCand.v`, `PropStat.v`, `PropMem.v`, `PropLeak.v`, `PropEnv.v`, `PropWCand.v`, `PropScreeUnit.v`, `PropNest.v`, `PropSingle.v`, `PropFixed.v`, `PropMember.v`, `PropBound.v`, `PropAgain.v`, `PropMore.v`, `PropFront.v`, `PropFloat.v`, `PropInco.v`, `PropMetric.v`, `PropBasis.v` | the theorems, each closed by `exact lemma`, with `Print Assumptions` |
| `Ex*.v` | concrete non-trivial instances of the hypotheses |

The graph, list and heap parts are in the style of the standard library. The numerical part uses mathcomp
(`realFieldType`, matrices); it uses no classical axiom and no axiomatised reals. `RealProofs.v` shows that the reals of the standard
library with `ln` are an instance; only examples (`ExIdent.v`, `ExReal.v`) use it.

## Modelling conventions

* A numpy matrix is a list of rows of integers (`Z`); `get M i j` is 0 outside of the matrix,
  and every theorem about a function that indexes its argument has the hypothesis that the
  matrix is square and the indices are in range, so the out-of-range default is never observed
  (numpy would raise `IndexError`, which is modelled only where the code relies on it).
  Float-valued arrays are modelled over an arbitrary real field (mathcomp's `realFieldType`), the
  ratios of `split_data` by rationals (`Q`): NaN, infinities and rounding are not modelled (except
  in `FloatModel.v`, where the ratios are rounded to 53 bits, and where an infinity is part of the algorithm: `_weakest_edge`, the default thresholds). `np.log` is an
  uninterpreted function; theorems that need a property of it have it as a hypothesis.
* A Python `set` is a duplicate-free list. The order in which CPython iterates over a set is an
  *argument* of the model (`hord`: an arbitrary function that permutes each list, and may answer
  differently at each call site and iteration), so the theorems hold for every hash order. The one
  exception is `pdag_to_dag` (utils.py 1012), which indexes an array with
  `list(set(range(n)) - {i})` and is correct only because CPython lists small ints in
  ascending order. Its model takes the order as a parameter; soundness and completeness are
  proved for the ascending order, and another order is shown to break it.
* `raise` and failing `assert`s are values of type `res`. Loops that are not structurally
  recursive take fuel and return `Err OutOfFuel` when it is exhausted; the theorems show that this
  never happens for the fuel the model uses (or, for unbounded loops, that some fuel suffices).
* Random draws are arguments. In the list utilities they are permutations/choices constrained by the
  documented contract of the generator. In `generators.py` the generator is a record of functions from
  a state to a draw and a new state; `fair` (GenSpec.v) says each draw is in its documented range. Seeds
  are turned into states by an arbitrary function, so a theorem holds for every generator.
* The numerical solvers (`np.linalg.eigh`, the convex solver, `svd`, `ges.fit`) are arguments of the
  models of the functions that call them (fields of the records `conf` and `world`), with their contracts as
  hypotheses where needed; inverse and determinant are mathcomp's. `scipy.linalg.sqrtm` is a field of `conf`; C92-C95 assume
  (`exact_roots`) that it returns symmetric square roots of the matrices it is called with.
* Mutation and aliasing (`HeapModel.v`): arrays live in a heap, an object is a record of addresses.
  The other files treat arrays as values; C59 and C72 justify this for models and describe where it fails; C115 justifies it for pruning and the cache, C130 for the graph functions of `utils.py`.

## Properties and approach

C01-C03: `topological_ordering` is modelled with its sink stack; invariant: removed edges are those
leaving processed nodes, a node is on the stack or processed iff all its parents are processed.
Leftover edges give a cycle by the pigeonhole principle. Negative weights refute C03 (witness).
C04-C08, C12, C31: direct, by membership in filters.
C09: depth-first stack invariant (each pending stack entry represents the paths extending it);
termination by a measure on the stack. C10 follows. C11: the visited set is contained in the component
and closed when the worklist is empty.
C13: direct from C01, C06.
C14-C15 (Dor-Tarsi): the matrix of the current iteration is the submatrix on `indexes`; soundness:
reverse removal order is topological, each removed node satisfies the two conditions; completeness: the
restriction of an extension is an extension and its sink satisfies the conditions.
C16: `order_edges` scans the matrix in sorted order. C17-C19 (Chickering's algorithm): each pass of
`label_edges` labels all edges into the next node; compelled-soundness by induction on the topological order;
reversible-completeness by building, for each reversible edge, an equivalent DAG with it reversed
(reversible components are chordal: a clique can be put first in a perfect elimination order).
C20: C14+C18. C21: bijection between orientation vectors and extensions; C22 refuted for cyclic
fully directed input. C23, C24: C21 applied to C18; direct proof for the chain.
C25-C26: each rule by a two/three-step contradiction in an arbitrary extension; termination: undirected
edges decrease. C27 is completeness of Meek's rules (`MaxProofs.v`): an extension is a ranking of the nodes; by
induction on the number of nodes, for every clique Q there is an extension in which every parent of Q outside Q
is a parent already in the graph (remove a potential sink; if all of them are in Q, either the induction applies to Q
without it or a covered-edge reversal yields an extension whose sink contradicts this). With Q = {a} every
undirected edge at a can be oriented out of a. C86-C88 follow: a graph that is the union of its
extensions is determined by them.
C28-C30: a DAG extends the I-CPDAG iff it agrees on the edges around targets, by C26 at each step.
C32-C38: list induction with the random draw an arbitrary permutation/choice. C38 refuted (rounding).
C39: direct. C40-C46: the Score object is a state machine over call histories; the solvers are
oracles. C43, C45, C46 are refuted by concrete histories and proved under side conditions.
C47-C51: invariants of the gradient loop. C52-C57: `main.py` with `score_dag`'s contract as oracle.
C58-C59: constructor on shapes + matrices. C60-C62: mathcomp matrices over a real field; det by
triangularisation along a topological order. C62 refuted by a 2-environment 1-variable model.
C63-C69, C71: direct. C70 refuted (NameError on every path that reaches the call). C72: heap
invariant "every array is owned by one object". C73, C79: each exception of the model is excluded by a
hypothesis on the data or shown to need one. C74: normal equations. C75-C77: invariants of the cache and
of the candidate list. C78: algebra on the two-group likelihood. C64-C67, C80-C84: induction over
the loops of `generators.py` with arbitrary fair draws. C85: orthogonality of the singular vectors.
C89-C91 (`DerivProofs.v`, `Deriv2Proofs.v`, `GradProofs.v`): derivatives along lines by the epsilon-delta definition over a
real field; Jacobi's formula for the determinant and the derivative of the inverse; then algebra of traces. C92, C95: for
fixed noise the likelihood is a constant plus a weighted sum of squares of the residuals; a stationary point of a convex
quadratic is a minimum, and a small last step bounds the gradient. C93: each step with a small enough learning rate
decreases the quadratic by a multiple of the squared step. The refutations of C91-C94 are explicit data.
C96-C97 (`OptProofs.v`, `ConsistProofs.v`): a positive definite M is U^T D U with det U = 1, so tr(M W) is the sum of d_i K_ii with
K = U W U^T; Hadamard's inequality det K <= prod K_ii and the tangent inequality of the logarithm, both with their
cases of equality. C98: C97 bounds the losses below, so C51 applies; then induction over the rounds.
C99 (`MainTermProofs.v`, `MainTerm2Proofs.v`): each call settles by C98, each pruned graph has one edge less; the state of the
Score object after a call does not depend on the bound once the call has settled.
C100 (`CoveredProofs.v`, `EquivProofs.v`): equivalent DAGs are connected by reversals of covered edges (Chickering 1995: the first
variable with a reversed parent, and its last such parent), which avoid the targets; a reversal multiplies I - B^T and the noise
by a matrix that is the same in all environments.
C101 (`RenameProofs.v`): each result is determined by a set of DAGs (the equivalence class, the consistent extensions), which renaming maps
to the set of the renamed graph. C102 (`RenScoreProofs.v`): det and trace are invariant under permutation; rescaled latents entail the same covariances.
C103-C104 (`UtilNumProofs.v`, `UtilProofs.v`): direct; the decimal digits of the version are computed.
C105 (`DescentProofs.v`): gradient descent never increases its loss (C50), so only the step for B can; refuted by two environments with opposite
correlations (`Descent2Proofs.v`), where the step for B and the score weight them differently (C62).
C106 (`FoldProofs.v`, `FoldRunProofs.v`): banker's rounding of n/2 and n/4 gives the sizes of the folds.
C107-C108 (`CovProofs.v`, `UnitProofs.v`): the quadratic form of the covariance is a sum of squares; a conversion of units is a product with a
diagonal matrix on both sides. `MainModel.v` takes `np.cov` as an argument (`w_cov`), so that C107 says when its results meet the hypotheses
of the other theorems.
C109 (`Units2Proofs.v`): refuted by the conversion of one variable. `AnyEdgeProofs.v` makes any given edge i -> j of a DAG the
weakest: with positions r of a topological ordering, the units are t^-n with n = r(j) - r(i) before i, r - r(i) from i to j and 0
after j, so that n grows by r(j) - r(i) along i -> j and by less along the other edges; t is large. Any order of the targets is that of units t^k for the k-th.
C110 (`NumsLatentProofs.v`): each number of latents has a Score object of its own, and the choice is the least (score, number), which is unique.
C111-C112 (`FullProofs.v`): the steps are those of `MainModel.v`, so C52-C55 apply; the classes GES finds are enumerated by `all_dags` (C21).

C113-C114 (`InitProofs.v`, `Init2Proofs.v`): a positive semi-definite matrix has one positive semi-definite root, so its singular vectors are eigenvectors; the sum over l orthonormal directions is a combination of the eigenvalues with weights in [0, 1] that add up to l.

C115 (`AliasProofs.v`): the program on the memory refines the one on values; arrays are only changed between their allocation and the call of score_dag that reads them.

C116 (`IdentProofs.v`, `Ident2Proofs.v`): the covariances of a DAG satisfy the normal equations along a topological order; models with one edge, with one collider and with one intervention violate those of a graph that is not equivalent. With latents that change on l of the variables, the covariances outside of these are known.

C117 (`RefineProofs.v`): from the characterisation of the result as a union (C86) and Chickering's covered reversals (`CoveredProofs.v`).

C118 (`LimitProofs.v`): the score of parameters that entail the covariances is the least possible (C96, C97), every candidate is scored before its
subgraphs and all variables before any smaller set of targets, and the first least score wins. C119 (`LimitRunProofs.v`): refuted by a run with two
variables and the two orientations of their edge as candidates.

C120 (`CostProofs.v`): the loops count their calls; a fit without weights would repeat forever, so every round of a run that ends removes an edge. What
the Score object still has after further calls is in `RecordProofs.v` (also for C111).

C121 (`NamesProofs.v`): every function of score.py commutes with renaming; gradient descent commutes with every change of coordinates that its loss,
gradient and bounds do not notice. The initial B is the only solution of its normal equations, so the order of the regressors does not matter.

C122 (`ShapeProofs.v`): np.cov on flat arrays equals `np_cov` of `CovModel.v` entry by entry; only its shape depends on the number of variables.

C123 (`WeightProofs.v`): a simulation between runs on arrays with the same non-zero entries; sums of non-negative weights are zero together. `Weight2Proofs.v` extends C14, C20, C26, C27, C30, C88 and C101 from 0/1 arrays to weights.

C124 (`DrawProofs.v`): the positions in the stream of the draws for each parameter, and that they are disjoint.

C125 (`ClassNamesProofs.v`): a relation between the states of two Score objects that holds up to the order of the targets, and between the
results of every function of main.py; two sorting permutations of different numbers agree.

C126 (`CandProofs.v`): the list of fitted models is described by the list of examined graphs, each with a flag that says whether it was
examined before (then the model is a copy); a permutation of the candidates permutes this list.

C127 (`DupProofs.v`, `QFieldProofs.v`): the four scores of the two graphs and their copies, up to a common sum of logarithms, are images of
rational numbers in the field and are compared there.

C128 (`StatProofs.v`): every function from the Score object upwards is shown to give equal results for two configurations with equal
fields; the folds of translated data are translates of the folds.

C129 (`GesMeanProofs.v`): the data of the refutation have the same covariance in every fold; the scores of the models with one edge and
without edges are compared with the monotonicity of the logarithm.

C130 (`MemProofs.v`): a program on the memory is related to the function on values and to the list of the arrays that it may change;
each function may change no array that exists before the call.

C131 (`LeakProofs.v`): the table of `_fit` has one entry per number of latents, whose Score object depends on the training fold only;
the sets of targets that `_prune_I` visits differ because each step removes another variable.

C132 (`EnvProofs.v`): without latents the score is a weighted sum over the environments; two candidates are scored exactly in both
orders, the logarithms bounded by `log x <= x - 1`.

C133-C135 (`WCandProofs.v`, `NegProofs.v`, `WDupProofs.v`, `WNegProofs.v`): the runs for the candidates and for the weighted candidates
are related step by step, through the cache and both loops, for any class of graphs whose weighted form passes for a DAG as they do.
Positive weights leave the test of the pruning loop as it is, and negative ones make it fail at once.

The counterexamples of C127, C132, C134 and C135 use a convex solver that returns the minimum of its problem in every fit of the call
(`exact_solver`), so that they do not come from a wrong answer of the solver.

C136, C137 (`ScreeUnitProofs.v`): the pooled variance of each split scales with the square of the factor, so that the first split with the
least pooled variance (C69) stays. A change of the units of single variables moves the gaps between the singular values.

C138 (`NestProofs.v`): further latents get zero effects, further edges zero weights, further targets the constant variances. `NestRunProofs.v`
shows that the fits of the two-variable example of C119 are optimal.

C139, C140 (`SingleProofs.v`): averages over one environment do nothing, so all models of _prune_I but the first, a copy from the
cache, are equal; np.argmin takes the first or the second. With at most one variable that is no target, every edge is directed.

C141 (`FixedProofs.v`): with a diagonal gamma all matrices of the fit are diagonal, and one step of each descent is computed for
each variable; both steps lower the loss because the variances move towards the sample variances without passing them.

C142 (`MemberProofs.v`): the returned model is fitted for the returned targets (C56, C76) and the class is that of its I-CPDAG, so
every member has a counterpart of the model with the same latent variances (C100).

C143 (`BoundProofs.v`): multiplying gamma by c and dividing the variances of the latents by c^2 keeps the covariances; c is
chosen as 1 + (sum of these variances) / psi_max.

C144 (`AgainProofs.v`): before the targets are pruned, the caches of both runs have the same keys for the returned DAG (all variables
as targets), and all entries are results of the same deterministic fits (`CandProofs.v`).

C145 (`MoreProofs.v`): the graphs fitted by the first call, counted with repetitions, are among those of the second, and the first
model of a graph is the fitted one and all others are copies of it, so every model of the first call occurs in the second.

C146 (`FrontProofs.v`): by C37 `split_data` keeps the type and the columns of each sample, so that the checks of `Score.__init__` (C71)
see the types of the elements of `data` but not that of `data`.

C147 (`FloatProofs.v`): all bracketings of the sum of three ratios are enumerated and computed. Conversely multiples of 2^-53 up to 1
are added exactly, and so are products below 2^53.

C148 (`Inco2Proofs.v`): if X = U K has independent columns then K is invertible, and U U^T is the projection X (X^T X)^-1 X^T. For
dependent columns the second column of U is free; two choices with different diagonals are given.

C149 (`MetricProofs.v`): mean, variance and maximum of a column under a factor; the value of C148 for the effects (3, 4) and (12, 5)
of the same model in two units.

C150 (`BasisProofs.v`): the projection on the columns of X S is that on the columns of X, for invertible S; then C148.

C03, C22, C38, C43, C45, C46, C47, C49, C53, C57, C58, C62, C65, C66, C70, C72, C75, C78, C80, C81, C91, C92, C93, C94, C105, C106, C109, C114, C119, C122, C123, C127, C129, C132, C134, C135, C137, C141, C143, C146, C147, C148, C149 are properties that the
documentation promises but the code does not keep in full. They are recorded as `partial`, with a
`..._refuted` theorem exhibiting the failure and, where there is one, a theorem for the largest natural domain
on which they do hold.

## Trusted base

Coq's kernel (`coqc` 8.16.1), `vm_compute` (used in examples and concrete runs), and the correspondence
between the model and the code, which is by reading: each definition cites the lines it models. The proofs
also import mathcomp (`ssreflect`, `algebra`, `fingroup`), which is checked by the same kernel and brings
no axiom into any theorem.

Not modelled: floating-point rounding, NaN/inf, memory and time limits, printing (`verbose`,
`debug`, `__str__`), numpy broadcasting of arguments with the wrong shape (except where the code
checks shapes), the interior of `numpy`, `sempler`, `ges`.

Also not modelled: `np.cov` of a single variable (0-d array), division of 0 by 0 in the scree plot, `rng.uniform`
with lo > hi, `num_targets` and `n_obs` of types other than those listed in the models, adjacencies with other
than two dimensions in the `Model` constructor.

## Print Assumptions

Every theorem of every `Prop*.v` is followed by `Print Assumptions`; each one answers
`Closed under the global context`: no axiom of the standard library, of mathcomp or of this development is used.

The examples over the real numbers, and no theorem, use axioms of the standard library: `ClassicalDedekindReals.sig_forall_dec`,
`ClassicalDedekindReals.sig_not_dec`, `functional_extensionality_dep`, `classic`, `constructive_indefinite_description`.

`coqchk -o` lists in addition the constants that mathcomp and `Coq.ssr` hide behind module signatures (e.g.
`finset.SetDef.finsetE`, `bigop.BigOp.bigopE`, `ssrunder.Under_rel.Under_relE`): they are defined and proved in those libraries, and
only appear because the checker reads sealed module fields as parameters.
