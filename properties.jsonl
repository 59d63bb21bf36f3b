{"id": "C01", "title": "A linked dataset is the list of samples added to it", "statement": "After any history of addSample, getSample (with or without index), reset, clear, append to unlinked fields and failed calls, the dataset's length is the number of complete samples added since the last clear, every field read back is exactly the column of those samples in order, getSample(i) returns exactly the i-th sample and moves the marker to i+1, and reading with getSample() until endOfData() yields every sample once in order - regardless of how often the internal buffers were regrown.", "quantifier": "every sequence of calls with rows of the declared widths, every field layout", "why_tests_cant": "buffer regrowth and marker arithmetic depend on the whole call history; tests only visit a few lengths", "anchors": ["pybrain/datasets/dataset.py: DataSet.appendLinked, _appendUnlinked, _resize, _resizeArray, getLinked, getField, getLength, endOfData, reset, clear", "pybrain/datasets/supervised.py: SupervisedDataSet.addSample, getSample"]}
{"id": "C02", "title": "A rejected sample does not desynchronise the dataset - only when its first field is the one rejected", "statement": "addSample with a row whose width fits no field raises; the dataset is unchanged if the first linked field rejects its row, but if a later field rejects its row the earlier fields have already grown by one row, so linked fields end up with different lengths and later samples are paired with the wrong rows.", "quantifier": "every dataset state, every malformed sample", "why_tests_cant": "tests add well-formed samples; the damage only shows in the state after an exception", "anchors": ["pybrain/datasets/dataset.py: DataSet.appendLinked, _appendUnlinked"]}
{"id": "C03", "title": "Length of an unlinked dataset", "statement": "len(ds) of a dataset with no linked fields is documented as the length of the longest field; it is in fact the length of the field whose label is alphabetically last, and equals the documented value exactly when that field is a longest one.", "quantifier": "every set of fields and lengths", "why_tests_cant": "the usual tests have one field, or fields of equal length", "anchors": ["pybrain/datasets/dataset.py: DataSet.getLength"]}
{"id": "C04", "title": "Converting a field's type keeps its rows - unless the buffer has spare capacity", "statement": "convertField keeps the rows already in the field as a prefix and leaves all other fields alone; the field's length after the call is the capacity of its buffer, so it keeps its length exactly when the buffer has no spare rows, and otherwise exposes padding rows and falls out of step with the fields it is linked to.", "quantifier": "every field content and every append history", "why_tests_cant": "depends on hidden spare capacity that follows from the append history", "anchors": ["pybrain/datasets/dataset.py: DataSet.convertField, setField"]}
{"id": "C05", "title": "Batches partition the data", "statement": "batches(label, n) yields consecutive blocks of exactly n rows, the last one possibly shorter but never empty, whose concatenation is the whole field; with a permutation of the batch numbers the same blocks are yielded in that order; randomBatches always yields them in the original order whatever the random generator does.", "quantifier": "every dataset, every batch size n >= 1, every permutation, every random choice", "why_tests_cant": "boundary arithmetic (length multiple of n, n larger than the data) and the random order cannot be enumerated", "anchors": ["pybrain/datasets/dataset.py: DataSet.batches, randomBatches"]}
{"id": "C06", "title": "Splitting a supervised dataset loses and duplicates nothing", "statement": "splitWithProportion(p) returns two datasets that together contain every sample exactly once, inputs still paired with their targets, the first one holding floor(n*p) samples.", "quantifier": "every dataset, every proportion in [0,1], every random permutation", "why_tests_cant": "random; a test sees one permutation", "anchors": ["pybrain/datasets/supervised.py: SupervisedDataSet.splitWithProportion"]}
{"id": "C07", "title": "A sequential dataset is a list of sequences", "statement": "After any history of newSequence, addSample, removeSequence, gotoSequence and clear, the dataset represents exactly the list of sequences obtained by performing the same operations on a plain list of lists: getNumSequences, getSequenceLength(i), getSequence(i), iteration and len agree with it, removing a sequence removes exactly its samples, empty sequences are refused except a last open one, and getCurrentSequence names the sequence that contains the marker.", "quantifier": "every operation history", "why_tests_cant": "index shifting after removals depends on the whole history", "anchors": ["pybrain/datasets/sequential.py: SequentialDataSet.newSequence, getSequence, _getSequenceField, removeSequence, getSequenceLength, getCurrentSequence, gotoSequence, endOfSequence, clear"]}
{"id": "C08", "title": "Splitting a sequential dataset keeps whole sequences", "statement": "splitWithProportion puts every non-empty sequence, unchanged and in the original relative order, into exactly one of the two results.", "quantifier": "every dataset, every random sample of indices", "why_tests_cant": "random choice of indices, any number of sequences", "anchors": ["pybrain/datasets/sequential.py: SequentialDataSet.splitWithProportion"]}
{"id": "C09", "title": "One-of-many target encoding round trip", "statement": "For integer class targets in [0, nClasses), converting targets to one-of-many gives rows with the high bound exactly at the class column and the low bound elsewhere, and converting back restores the original targets; a target >= nClasses is refused and leaves the dataset unchanged.", "quantifier": "every target column, every number of classes, every pair of bounds", "why_tests_cant": "must hold for every label assignment", "anchors": ["pybrain/datasets/classification.py: ClassificationDataSet._convertToOneOfMany, _convertToClassNb"]}
{"id": "C10", "title": "Splitting by class partitions the samples - only if the class field is up to date", "statement": "splitByClass(c) returns two datasets whose samples, in order, are exactly those of class c and those of other classes when the class field covers all samples; samples added after construction without assignClasses are silently dropped from both.", "quantifier": "every dataset and class label", "why_tests_cant": "depends on which calls preceded the split", "anchors": ["pybrain/datasets/classification.py: ClassificationDataSet.splitByClass, assignClasses"]}
{"id": "C11", "title": "Windowing a sequential dataset", "statement": "convertSequenceToTimeWindows is documented to cut every sequence into consecutive complete windows, pruning only incomplete ones; in fact it also drops the final complete window of a sequence whose length is a multiple of the window size, and it truncates the last sequence at the number of sequences instead of at the end of the data.", "quantifier": "every sequential dataset and window size", "why_tests_cant": "off-by-one at sequence boundaries", "anchors": ["pybrain/tools/datasettools.py: convertSequenceToTimeWindows"]}
{"id": "C12", "title": "Copies of a dataset", "statement": "copy() yields an independent dataset with the same fields, links and rows, whose marker is at the start; the vector format is preserved for a plain DataSet but lost for its subclasses.", "quantifier": "every dataset state", "why_tests_cant": "aliasing and forgotten attributes show only after later mutation", "anchors": ["pybrain/datasets/dataset.py: DataSet.copy, __reduce__", "pybrain/datasets/supervised.py: SupervisedDataSet.__reduce__"]}
{"id": "C13", "title": "Module ordering is a topological order or an error", "statement": "sortModules succeeds exactly when the non-recurrent connection graph has no directed cycle, and then the activation order contains every module exactly once with the source of every connection before its destination; otherwise it raises the construction error.", "quantifier": "every finite graph of modules and (parallel) connections", "why_tests_cant": "all graphs", "anchors": ["pybrain/structure/networks/network.py: Network._topologicalSort, sortModules"]}
{"id": "C14", "title": "Module ordering is reproducible", "statement": "For uniquely named modules the activation order, and hence the layout of net.params, depends only on the modules and on the order in which each module's outgoing connections were added - not on set or dictionary iteration order.", "quantifier": "every graph, every iteration order of the module set and connection dictionary", "why_tests_cant": "hash order varies between runs and versions", "anchors": ["pybrain/structure/networks/network.py: Network._topologicalSort"]}
{"id": "C15", "title": "The network parameter vector is exactly its components' parameters", "statement": "After sortModules the network's params and derivs are the concatenation of those of its modules and connections; assigning a vector of the right length distributes it so that reading every component back returns exactly its own slice; writing through one component changes exactly its slice of the network vector and no other component; each component's values survive sorting.", "quantifier": "every network, every parameter vector, every sequence of writes", "why_tests_cant": "aliasing between component views and the flat vector", "anchors": ["pybrain/structure/networks/network.py: Network.sortModules, _setParameters, _setDerivatives, _containerIterator, params, derivs, paramdim", "pybrain/structure/parametercontainer.py: ParameterContainer._setParameters, _setDerivatives"]}
{"id": "C16", "title": "Copying a network", "statement": "net.copy() gives an independent network with equal parameters whose component parameters are again views of its own vector; its derivative vector, however, is no longer connected to the components' derivatives, so gradients accumulated in a copy never reach copy.derivs.", "quantifier": "every network and every later write", "why_tests_cant": "aliasing after deep copy", "anchors": ["pybrain/structure/networks/network.py: Network.copy", "pybrain/structure/evolvables/evolvable.py: Evolvable.copy"]}
{"id": "C17", "title": "Feed-forward activation computes the network function", "statement": "After activate(x) on a sorted feed-forward network every module's input is the external input (for input modules) plus the sum of its incoming connections applied to the source outputs, every output is the module's transfer function of its input, and the returned vector is the output modules' outputs; the result depends only on x and the parameters, not on earlier activations.", "quantifier": "every acyclic network, every input, every activation history", "why_tests_cant": "state left in buffers by earlier calls; all topologies", "anchors": ["pybrain/structure/networks/feedforward.py: FeedForwardNetworkComponent, FeedForwardNetwork.activate", "pybrain/structure/modules/module.py: Module.activate, forward, reset"]}
{"id": "C18", "title": "Back-propagation computes the exact gradient", "statement": "One activate followed by one backActivate on a feed-forward network adds to each parameter's derivative exactly the directional derivative of the output along the given error vector, and returns the derivative with respect to the input, whenever all layers are differentiable at the visited point.", "quantifier": "every acyclic network of full, shared, identity and involutive permutation connections (on any slices) and layers whose backward pass is the transposed derivative at the visited point (linear, bias, tanh, sigmoid within the clipping range, relu off 0, softsign, gates), all weights, inputs and error vectors; recurrent networks over any number of time steps", "why_tests_cant": "finite-difference tests check a few points of a few nets to a few digits", "anchors": ["pybrain/structure/networks/feedforward.py: FeedForwardNetworkComponent._backwardImplementation", "pybrain/structure/connections/full.py", "pybrain/structure/modules/*layer.py", "pybrain/structure/modules/module.py: Module.backActivate"]}
{"id": "C19", "title": "Calling backActivate twice", "statement": "A second backActivate without a new activation does not reproduce the first: errors of hidden modules are accumulated on top of the stale ones, so derivatives grow by more than the gradient.", "quantifier": "networks with a hidden module, every error vector", "why_tests_cant": "state-dependent", "anchors": ["pybrain/structure/connections/connection.py: Connection.backward", "pybrain/structure/modules/module.py: Module.backActivate"]}
{"id": "C20", "title": "Connections: backward is the transpose of forward", "statement": "For every connection class the input error computed by backward is the transpose of the forward map applied to the output error, and the parameter derivative is the derivative of the forward map with respect to the parameters. This holds for full, identity and shared connections and for arbitrary slices; it fails for LinearConnection (derivatives stay 0), for FullNotSelfConnection's derivatives on the unused diagonal, and for PermutationConnection unless the permutation is an involution.", "quantifier": "all dimensions, slices, weights, inputs and errors", "why_tests_cant": "all sizes and permutations", "anchors": ["pybrain/structure/connections/full.py", "pybrain/structure/connections/identity.py", "pybrain/structure/connections/linear.py", "pybrain/structure/connections/fullnotself.py", "pybrain/structure/connections/permutation.py", "pybrain/structure/connections/shared.py", "pybrain/structure/connections/connection.py"]}
{"id": "C21", "title": "Recurrent activation is the recurrence", "statement": "The outputs produced by successive activate calls after a reset are those of the mathematical recurrence (zero initial state), for sequences of any length; regrowing the time buffers is unobservable, and reset erases all influence of earlier sequences.", "quantifier": "every recurrent network, every input sequence, every earlier history", "why_tests_cant": "unbounded sequence length and buffer doubling", "anchors": ["pybrain/structure/networks/recurrent.py: RecurrentNetworkComponent, RecurrentNetwork", "pybrain/structure/modules/module.py: Module._growBuffers, reset"]}
{"id": "C22", "title": "The forgetful mode of a recurrent network does not change its outputs", "statement": "A recurrent network with forget=True (constant memory) produces for every input sequence the same outputs as with forget=False.", "quantifier": "every recurrent network, every input sequence", "why_tests_cant": "sequence length unbounded", "anchors": ["pybrain/structure/networks/recurrent.py: RecurrentNetworkComponent._forwardImplementation", "pybrain/structure/modules/module.py: Module.shift"]}
{"id": "C23", "title": "Softmax outputs are a probability distribution", "statement": "SoftmaxLayer outputs are strictly positive (for inputs within the clipping range), sum to 1 and preserve the order of the inputs; PartialSoftmaxLayer's outputs are not normalised.", "quantifier": "every input vector of every dimension", "why_tests_cant": "all real inputs", "anchors": ["pybrain/structure/modules/softmax.py: SoftmaxLayer, PartialSoftmaxLayer", "pybrain/tools/functions.py: safeExp"]}
{"id": "C24", "title": "Neuron-wise parameter decomposition", "statement": "getDecomposition of a neuron-decomposable network partitions the parameter vector: every parameter index belongs to exactly one neuron's group; setDecomposition(getDecomposition()) changes nothing and getDecomposition after setDecomposition(d) returns d.", "quantifier": "every network of neuron layers and full connections, both decomposition styles", "why_tests_cant": "all topologies", "anchors": ["pybrain/structure/networks/neurondecomposable.py: NeuronDecomposableNetwork"]}
{"id": "C25", "title": "Masked parameters stay within their complexity budget", "statement": "Whatever sequence of mutations is applied after construction, the number of enabled parameters never exceeds maxComplexity, parameters read back are zero where masked, and setting the visible parameters and reading them back is the identity.", "quantifier": "every mutation history and every random outcome", "why_tests_cant": "random histories", "anchors": ["pybrain/structure/evolvables/maskedparameters.py: MaskedParameters"]}
{"id": "C26", "title": "Early-stopping training keeps the best epoch it saw", "statement": "trainUntilConvergence leaves in the module the parameters of the epoch with the least validation error among the epochs after the first one started; the initial parameters are discarded even when they were better, and with maxEpochs=m it trains m+1 epochs when it does not converge earlier.", "quantifier": "every error sequence, every maxEpochs and continueEpochs", "why_tests_cant": "depends on the whole error trajectory", "anchors": ["pybrain/supervised/trainers/backprop.py: BackpropTrainer.trainUntilConvergence"]}
{"id": "C27", "title": "RPROP step sizes stay in their range", "statement": "For every sequence of gradients each RPROP step size stays within [deltamin, deltamax], each parameter moves by exactly its step in the direction of the gradient sign or not at all, and the step grows/shrinks exactly according to the sign of the product of consecutive gradients.", "quantifier": "every gradient history", "why_tests_cant": "unbounded histories", "anchors": ["pybrain/auxiliary/gradientdescent.py: GradientDescent.__call__, init"]}
{"id": "C28", "title": "Cross-validation folds", "statement": "CrossValidator uses every sample exactly once for testing and in all other folds for training; within a fold train and test samples are disjoint and together are the whole dataset; fold sizes differ by at most one.", "quantifier": "every dataset size, every number of folds, every permutation", "why_tests_cant": "sizes not divisible by the number of folds; random order", "anchors": ["pybrain/tools/validation.py: CrossValidator.validate"]}
{"id": "C29", "title": "Black-box optimizers report the best evaluation they made", "statement": "After any sequence of evaluations the reported best fitness is the maximum (minimum when minimising) of all fitnesses evaluated since the evaluator was set and belongs to the reported best individual; learn never makes more evaluations than maxEvaluations allows, and learn(n) performs exactly n learning steps when no other criterion fires first.", "quantifier": "every evaluator, every sequence of candidates", "why_tests_cant": "arbitrary evaluation histories", "anchors": ["pybrain/optimization/optimizer.py: BlackBoxOptimizer._oneEvaluation, learn, _stoppingCriterion, _bestFound"]}
{"id": "C30", "title": "Setting the evaluator keeps best individual and best fitness together - except after initial population evaluation", "statement": "setEvaluator overwrites the best individual with the start point after the algorithm's own initialisation: for algorithms that evaluate an initial population there (evolution strategies) the reported best fitness may belong to an individual other than the reported one.", "quantifier": "every evaluator and initial population", "why_tests_cant": "needs a particular evaluation order", "anchors": ["pybrain/optimization/optimizer.py: BlackBoxOptimizer.setEvaluator", "pybrain/optimization/populationbased/es.py: ES._additionalInit"]}
{"id": "C31", "title": "Direction of optimisation", "statement": "Switching minimize on and off any number of times leaves an optimizer evaluating the original objective in the requested direction; the desired fitness keeps its meaning under flips, but setting a second evaluator while minimising flips its sign again.", "quantifier": "every sequence of minimize/setEvaluator calls", "why_tests_cant": "state-dependent double negation", "anchors": ["pybrain/optimization/optimizer.py: BlackBoxOptimizer._setMinimize, setEvaluator, _flipDirection"]}
{"id": "C32", "title": "Genetic algorithm keeps its population well-formed", "statement": "Every generation has exactly populationSize individuals of the right dimension, children of crossover take each coordinate from one of the two parents at that position, mutated coordinates respect the bounds, and with elitism the best individuals survive unchanged.", "quantifier": "every fitness function, every random outcome, every generation", "why_tests_cant": "random", "anchors": ["pybrain/optimization/populationbased/ga.py: GA"]}
{"id": "C33", "title": "Non-dominated front", "statement": "The front returned for a set of objective vectors consists exactly of the vectors not dominated by any other (strict domination in every objective), for the pairwise, array and divide-and-conquer implementations alike; with equality disallowed exactly one representative of the weakly non-dominated vectors per value remains.", "quantifier": "every list of vectors of every dimension", "why_tests_cant": "all inputs", "anchors": ["pybrain/tools/nondominated.py: _non_dominated_front_old, _non_dominated_front_fast, _non_dominated_front_arr, _non_dominated_front_merge_arr"]}
{"id": "C34", "title": "Non-dominated sorting and NSGA-II selection", "statement": "non_dominated_sort partitions the items into fronts, each front being exactly the non-dominated set of what the earlier fronts left over; nsga2select returns min(survivors, n) distinct individuals and never prefers an individual of a later front over one of an earlier front.", "quantifier": "every population and objective function", "why_tests_cant": "all inputs", "anchors": ["pybrain/tools/nondominated.py: non_dominated_sort", "pybrain/optimization/populationbased/multiobjective/nsga2.py: nsga2select"]}
{"id": "C35", "title": "Rank-based fitness", "statement": "rankedFitness assigns each index a distinct rank 0..n-1 consistent with fitness order; TopSelection selects exactly the top fraction; TournamentSelection, however, credits the position inside the tournament instead of the winner, so only indices below tournamentSize are ever selected.", "quantifier": "every fitness vector, every random draw", "why_tests_cant": "random draws; all vectors incl. ties", "anchors": ["pybrain/tools/rankingfunctions.py: rankedFitness, TopSelection, TournamentSelection"]}
{"id": "C36", "title": "Capture game follows the rules of atari-go", "statement": "For every game of legal moves: groups and liberties tracked by the game are exactly the connected same-colour groups and their empty neighbours; a move is illegal iff the point is occupied; the game ends exactly when a placed stone leaves an opponent group (or its own group, as suicide) without liberties and the winner is set accordingly.", "quantifier": "every board size and every move sequence", "why_tests_cant": "all games", "anchors": ["pybrain/rl/environments/twoplayergames/capturegame.py: CaptureGame"]}
{"id": "C37", "title": "Gomoku ends exactly on five in a row", "statement": "For every sequence of legal moves the game is over exactly when some player has five consecutive stones in a row, column or diagonal or the board is full; the winner is the player who completed the row.", "quantifier": "every board size and every move sequence", "why_tests_cant": "all games", "anchors": ["pybrain/rl/environments/twoplayergames/gomoku.py: GomokuGame"]}
{"id": "C38", "title": "Pente captures", "statement": "In Pente a move captures exactly the pairs of opponent stones flanked along a line by the placed stone and another own stone; captured points become empty, counters grow by the number of captured stones, and the number of stones on the board is moves minus captures.", "quantifier": "every position and move", "why_tests_cant": "all positions", "anchors": ["pybrain/rl/environments/twoplayergames/pente.py: PenteGame"]}
{"id": "C39", "title": "Tabular Q-learning and SARSA updates", "statement": "Batch learning applies, for each consecutive pair of steps inside each episode, exactly one temporal-difference update to the visited entry and changes nothing else; no update crosses an episode boundary; with rewards in [0,M], learning rate in [0,1] and discount below 1 all values stay in [0, M/(1-gamma)]. In non-batch mode learn never changes the table.", "quantifier": "every history, every table", "why_tests_cant": "all histories", "anchors": ["pybrain/rl/learners/valuebased/q.py: Q.learn", "pybrain/rl/learners/valuebased/sarsa.py: SARSA.learn", "pybrain/structure/modules/table.py: Table"]}
{"id": "C40", "title": "Maze agent never enters a wall", "statement": "In any maze whose free cells are not on the border the agent is always on a free cell, moves to the adjacent cell iff it is free and otherwise stays and bangs, for every action sequence and random outcome; the MDP observation identifies the position uniquely when the maze has at least as many rows as columns, and can confuse two cells otherwise.", "quantifier": "every maze, action sequence and random outcome", "why_tests_cant": "all mazes and histories", "anchors": ["pybrain/rl/environments/mazes/maze.py: Maze", "pybrain/rl/environments/mazes/tasks/mdp.py: MDPMazeTask.getObservation"]}
{"id": "C41", "title": "Task scaling", "statement": "denormalize maps [-1,1] linearly onto the actor limits, with clipping always within them, and is the inverse of normalize; normalize, contrary to the clipping option, returns values outside [-1,1] for out-of-range sensors.", "quantifier": "all limits with lower < upper, all values", "why_tests_cant": "all reals", "anchors": ["pybrain/rl/environments/task.py: Task.normalize, denormalize"]}
{"id": "C42", "title": "Tournament bookkeeping", "statement": "organize plays every ordered pair of distinct agents exactly once per round; ELO updates conserve the total rating; a drawn game is recorded as a win of the second player.", "quantifier": "every pool of agents and every game outcome", "why_tests_cant": "all outcomes", "anchors": ["pybrain/rl/experiments/tournament.py: Tournament"]}
{"id": "C43", "title": "Logging agent protocol", "statement": "A logging agent accepts exactly the cyclic order observation, action, reward, and its history is exactly the list of completed (observation, action, reward) triples since the last reset, cut into episodes.", "quantifier": "every call sequence", "why_tests_cant": "all histories", "anchors": ["pybrain/rl/agents/logging.py: LoggingAgent", "pybrain/rl/agents/learning.py: LearningAgent"]}
{"id": "C44", "title": "Model-based evaluation and greedy policies", "statement": "Collapsing stochastic transition matrices with a stochastic policy gives a stochastic matrix; greedy policies are stochastic and supported on maximising actions; the computed value function is the discounted reward sum over exactly the documented truncated horizon.", "quantifier": "every finite MDP", "why_tests_cant": "all MDPs", "anchors": ["pybrain/rl/learners/modelbased/policyiteration.py"]}
{"id": "C45", "title": "Gray code round trip", "statement": "gray2int(int2gray(i)) = i for every non-negative integer and successive codes differ in exactly one bit.", "quantifier": "every integer of unbounded size", "why_tests_cant": "unbounded integers", "anchors": ["pybrain/utilities.py: int2gray, gray2int"]}
{"id": "C46", "title": "Enumerating coordinate tuples", "statement": "iterCombinations(dims) yields every tuple with 0 <= t[k] < dims[k] exactly once, in lexicographic order.", "quantifier": "every tuple of ranges", "why_tests_cant": "all dimensions", "anchors": ["pybrain/utilities.py: iterCombinations"]}
{"id": "C47", "title": "Triangular matrix packing", "statement": "flat2triu(triu2flat(m)) restores every upper triangular matrix and triu2flat(flat2triu(v)) every vector of the right length.", "quantifier": "every dimension and content", "why_tests_cant": "all sizes", "anchors": ["pybrain/utilities.py: triu2flat, flat2triu"]}
{"id": "C48", "title": "Flood fill computes the reachable set", "statement": "flood(f, s) returns exactly the elements reachable from s by stepping with f inside the relevant set.", "quantifier": "every step function on a finite set", "why_tests_cant": "all graphs", "anchors": ["pybrain/utilities.py: flood"]}
{"id": "C49", "title": "Grid search covers the grid exactly once", "statement": "GridSearch2D evaluates every combination of the two parameter grids exactly once, returns a best one, and DOE grids stay within the parameter bounds.", "quantifier": "every pair of grid sizes, every performance function", "why_tests_cant": "all sizes", "anchors": ["pybrain/tools/gridsearch.py: GridSearch2D._calculateJobs, _permuteSequence, search, GridSearchDOE._moveGridIntoBounds"]}
{"id": "C50", "title": "Importance mixing keeps the batch size", "statement": "importanceMixing returns reused indices and new points that together are exactly as many as the old points, indices strictly increasing and valid, and for at least two points never reuses all of them.", "quantifier": "every batch, densities and random draws for which it terminates", "why_tests_cant": "random", "anchors": ["pybrain/auxiliary/importancemixing.py: importanceMixing"]}
{"id": "C51", "title": "Evolino populations", "statement": "getIndividuals builds every sub-individual into exactly nCombinations individuals; selection keeps the fittest; reproduction refills each subpopulation to its maximum size keeping the survivors.", "quantifier": "every population and random outcome", "why_tests_cant": "random", "anchors": ["pybrain/supervised/evolino/population.py", "pybrain/supervised/evolino/gpopulation.py", "pybrain/supervised/evolino/filter.py"]}
{"id": "C52", "title": "Weighted random choice", "statement": "drawIndex returns an index with strictly positive probability weight for every random draw, and the set of draws selecting index i is an interval of length p[i].", "quantifier": "every probability vector and draw", "why_tests_cant": "all reals", "anchors": ["pybrain/utilities.py: drawIndex"]}
{"id": "C53", "title": "Hashing for nearest neighbours", "statement": "MinHash.knn returns at most k stored items, all from the query's bucket, in non-increasing similarity, no better item of the bucket being left out, and a stored item is always found by querying it.", "quantifier": "every insertion history, permutations and query", "why_tests_cant": "all histories", "anchors": ["pybrain/supervised/knn/lsh/minhash.py: MinHash"]}
{"id": "C54", "title": "Generated architectures are valid", "statement": "buildNetwork with any list of at least two layer sizes, bidirectional and swiping networks of any dimensions produce acyclic networks (sorting never fails) with the expected number of parameters.", "quantifier": "every list of layer sizes / dims", "why_tests_cant": "all sizes", "anchors": ["pybrain/tools/shortcuts.py: buildNetwork", "pybrain/structure/networks/swiping.py", "pybrain/structure/networks/bidirectional.py"]}
{"id": "C55", "title": "Saving and loading a network", "statement": "Reading back a written network gives the same modules, roles, connections and component parameters, provided no module is both input and output (its output role is lost) ; the order of components in the flat parameter vector may change.", "quantifier": "every network description", "why_tests_cant": "all topologies", "anchors": ["pybrain/tools/customxml/networkwriter.py", "pybrain/tools/customxml/networkreader.py"]}
{"id": "C56", "title": "Episodic returns", "statement": "From a reset on, whatever the agent does, a maze task counts the steps, gives the agent the reward of each step (final on the goal, penalty after a bump, default otherwise), accumulates the rewards discounted from the first step on and is finished exactly on the goal or after the allowed number of steps; the T-maze rewards the agent for the wrong turn that it punishes in its total, the tiger task never accumulates anything, and the perturbed moves of the 4x3 maze include the opposite direction for two of the four actions.", "quantifier": "every maze, action sequence and random outcome", "why_tests_cant": "all histories", "anchors": ["pybrain/rl/environments/episodic.py: EpisodicTask", "pybrain/rl/environments/mazes/tasks/maze.py: MazeTask", "pybrain/rl/environments/mazes/tasks/pomdp.py", "pybrain/rl/environments/mazes/tasks/tmaze.py", "pybrain/rl/environments/mazes/tasks/tiger.py", "pybrain/rl/environments/mazes/tasks/maze4x3.py", "pybrain/rl/experiments/experiment.py"]}
{"id": "C57", "title": "Experiments and the history they leave", "statement": "An episodic experiment with a logging agent never fails, whatever the environment and the policy do, as long as no episode is finished before its first step, and leaves exactly its episodes in the agent's history, in order. A queued experiment hands the learner, in every cycle, exactly the last queueLength episodes.", "quantifier": "for all observation and action sizes, all numbers of episodes and cycles, all non-empty episodes of correctly sized arrays", "why_tests_cant": "A test runs a fixed number of episodes with one environment; it cannot show that the window stays right for every number of cycles and all lengths of episodes.", "anchors": ["pybrain/rl/experiments/experiment.py:21-31", "pybrain/rl/experiments/episodic.py:29-46", "pybrain/rl/experiments/queued.py:13-41", "pybrain/rl/agents/logging.py:34-77", "pybrain/datasets/sequential.py"]}
{"id": "C58", "title": "LSTM layers are back-propagated exactly", "statement": "Run over any sequence after a reset, the LSTM layer computes the textbook recurrence, and the input errors and peephole derivatives of its backward pass are the exact derivatives of the weighted outputs with respect to all inputs at all time steps and all peephole weights; the multi-dimensional LSTM layer does the same for one step and so may stand in any network of C18. Without a reset between two sequences the errors of the earlier, longer sequence leak into the later one.", "quantifier": "for all numbers of cells and dimensions, all sequence lengths, inputs, output errors and peephole weights (gates within the clipping bound of the sigmoid), any value of maxoffset left behind", "why_tests_cant": "A gradient check compares numeric and computed derivatives of a few random networks and short sequences up to a tolerance.", "anchors": ["pybrain/structure/modules/lstm.py:78-143", "pybrain/structure/modules/mdlstm.py:88-158", "pybrain/structure/modules/module.py:84-89", "pybrain/structure/networks/recurrent.py:63-133"]}
{"id": "C59", "title": "Networks inside networks", "statement": "A feed-forward network whose modules are feed-forward networks, to any depth, computes what the network of the inner networks' functions computes, leaves every inner network in the state it would have had if it had been activated on its own, and one activate and backActivate add to the derivatives of every component at every depth exactly the partial derivatives of the weighted output, and return exactly those with respect to the inputs.", "quantifier": "for all trees of networks (any depth, topology, slices, connection kinds incl. shared), all parameters, inputs, output errors and derivatives left over from before; layers differentiable at the inputs they see", "why_tests_cant": "A gradient check covers a few networks with one nesting level up to a tolerance; forgetting one slice offset or one inner derivative shows only in topologies nobody wrote down.", "anchors": ["pybrain/structure/networks/feedforward.py:16-55", "pybrain/structure/networks/network.py:146-150", "pybrain/structure/modules/module.py:72-131"]}
{"id": "C60", "title": "Parameters of networks inside networks", "statement": "If inner networks are sorted before the networks around them, then after any sequence of adding, sorting, setting and updating in place the vector of every sorted network at every depth is the concatenation of what its components hold; sorting never fails and changes no parameter, setting the outer vector hands every component at every depth its part, and updating the vector of any network in place changes exactly the components below it. If an inner network is sorted or extended after it was added, its parameters are silently missing from the outer vector, the outer sort raises, or its own vector is cut off.", "quantifier": "for all trees of networks and components, all sessions of legal calls, all parameter values", "why_tests_cant": "A test builds one nested network and looks at one order of calls; aliasing of array views across several levels depends on the whole history of adds, sorts and assignments.", "anchors": ["pybrain/structure/networks/network.py:80-109", "pybrain/structure/networks/network.py:128-166", "pybrain/structure/networks/network.py:215-259", "pybrain/structure/parametercontainer.py:24-65"]}
{"id": "C61", "title": "A training epoch is gradient descent on the squared error", "statement": "For every network and every sequence, BackpropTrainer's _calcDerivs returns the (importance weighted) half squared error and adds exactly minus its gradient to the derivatives, whatever the network was used for before. An epoch then makes one descent step with momentum and weight decay per sequence (online), or one step with the summed gradient (batch), in which case the shuffle does not matter, every parameter moves against the partial derivative of the total error and any small enough learning rate reduces that error at a non-stationary point. Over any number of epochs in any mix of modes the trainer's and the module's parameters stay equal; but parameters written into the module by anybody else (trainUntilConvergence's own restoring of the best weights included) are lost at the next online step, and batch mode ignores weight decay.", "quantifier": "for all feed-forward (one sample) and recurrent networks, parameters, sequences, importances, previous states, datasets, shuffles, learning rates, momenta and decays; layers differentiable at the inputs they see", "why_tests_cant": "A test sees the error fall on one dataset with one learning rate; a wrong gradient entry, a stale parameter copy or a dropped decay still lets it fall.", "anchors": ["pybrain/supervised/trainers/backprop.py:50-107", "pybrain/auxiliary/gradientdescent.py:37-92", "pybrain/structure/parametercontainer.py:36-70", "pybrain/supervised/trainers/backprop.py:188-260"]}
{"id": "C62", "title": "Benchmark functions have their zero where they say", "statement": "FunctionEnvironment promises a single minimum of value zero at xopt. This holds exactly for sphere, cigar, tablet, sharp, elliptic, different powers, Rosenbrock (from two dimensions), Glasmachers, Rastrigin, Ackley, Griewank, Schaffers F7 and Buche-Rastrigin; translation, penalization (within the box) and rotation (of functions with the zero at the origin) keep the promise. It fails for Schwefel 1.2, one-dimensional Rosenbrock, Weierstrass, Griewank-Rosenbrock, the funnel and the bounded linear function, for the base of a translated function, and for a rotated function with its zero elsewhere; the unbounded functions go below every bound.", "quantifier": "for all dimensions, all points, all scaling parameters, offsets, matrices, penalty factors", "why_tests_cant": "A test evaluates a function at its optimum and a few random points; that no other point of a real space is as good, and that in-place updates of shared arrays move no other function, is a statement about all points and all chains of transformations.", "anchors": ["pybrain/rl/environments/functions/function.py:11-45", "pybrain/rl/environments/functions/unimodal.py", "pybrain/rl/environments/functions/multimodal.py", "pybrain/rl/environments/functions/unbounded.py", "pybrain/rl/environments/functions/transformations.py:36-103"]}
{"id": "C63", "title": "What the error measures measure", "statement": "On every dataset and for every module, testOnData and evaluateModuleMSE return half the (importance weighted) squared error of the module, reset before each sequence, divided by the total weight, and ModuleValidator.MSE returns exactly twice that; averaging over epochs changes nothing. testOnSequenceData is the fraction of sequences whose summed outputs and last target have the same winner, sequence ends are the last positions of the sequences, testOnClassData lists the winners. A dataset with an open last sequence makes testOnData raise, the hit rate raises for more than one output or importances, testOnClassData raises on importances, and on unsequenced data the measures disagree for modules with memory.", "quantifier": "for all sessions that built the dataset, all modules with a proper reset, all dimensions, importances and numbers of averaging passes", "why_tests_cant": "Tests compare one number on one dataset; that two measures computed by different code paths agree up to the same constant for every dataset, weighting and stateful module is a universal equation.", "anchors": ["pybrain/datasets/supervised.py:70-106", "pybrain/datasets/sequential.py:175-189", "pybrain/datasets/importance.py:36-51", "pybrain/supervised/trainers/backprop.py:133-186", "pybrain/tools/validation.py:13-236", "pybrain/tools/validation.py:358-394"]}
{"id": "C64", "title": "Particle swarm: update rule, memory, and what the search depends on", "statement": "Each step of the particle swarm optimizer moves every particle by its damped velocity plus a pull to its own best point plus a pull to the best-evaluated of its neighbours (the first among equals), with the two neighbourhoods being everybody and the ring. A particle's remembered point is always the first best of all the points it was evaluated at. The search depends only on comparisons of fitness and not on coordinates: affinely transforming the starts and ranking alike gives the transformed trajectory, minimizing mirrors maximizing, and no particle leaves a plane containing all the starts, so a collapsed swarm never moves again. Refuted: the social pull goes to where the best neighbour was evaluated (a neighbour served earlier in the same loop has already moved).", "quantifier": "all rings of scalars, dimensions, swarm sizes, connected neighbourhoods, evaluators into any strict weak order, coefficients, starts, draws and numbers of steps", "why_tests_cant": "The search is random: a test sees one trajectory. Invariance relates two whole runs with the same draws for every affine map, and the memory claim ranges over all histories.", "anchors": ["pybrain/optimization/populationbased/pso.py:10-16", "pybrain/optimization/populationbased/pso.py:77-99", "pybrain/optimization/populationbased/pso.py:106-133"]}
{"id": "C65", "title": "Finite differences, SPSA and PGPE: direction and size of the steps, invariance, positive deviations", "statement": "After any history SPSA and PGPE (without momentum) move along the deviation they tried, towards the better of the two probes, by at most the learning rate times the deviation (SPSA: times gamma squared); their first step does not move and they never divide by zero, whether minimizing or maximizing. Their trajectory is the same for every fitness a*f+b with a>0, and with a<0 when the direction is flipped. PGPE's standard deviations stay positive for ever when the sigma learning rate is in [0,1) and move towards what was tried exactly when the pair beat the running average. FiniteDifferences takes the gradient of an affine fitness exactly when the value at the current point is zero; in general it adds that value times the regression of the constant. Refuted: finite differences ignores constant offsets of the fitness; finite differences descends when asked to minimize (it does not look at the direction); PGPE with global exploration adapts its deviations (it raises AttributeError where it would).", "quantifier": "all dimensions, evaluators, histories of draws, learning rates, decay factors and start points; for finite differences every matrix inverted by the pseudo-inverse", "why_tests_cant": "Each run is random and a test sees one; invariance compares two runs for every a and b, positivity is an invariant over all histories, and the failing branch of global exploration is only reached when a pair beats the average.", "anchors": ["pybrain/optimization/finitedifference/fd.py:23-60", "pybrain/optimization/finitedifference/spsa.py:20-58", "pybrain/optimization/finitedifference/pgpe.py:28-90", "pybrain/auxiliary/gradientdescent.py:81-92"]}
{"id": "C66", "title": "Linear function approximation: what the learners and their agent do", "statement": "Each learner changes its weights by the rule it names: Q_LinFA moves the value of every state by its overlap with the one visited, the lambda learners move along traces that are the decayed sum of all visits of the episode, GQLambda adds the correction by its second weights. With indicator features they are tabular Q-learning and SARSA, and bounded rewards keep the table bounded under every sequence of agent calls. Weights that satisfy the Bellman equation for everything observed never change, and are what LSTDQLambda and LSPI learn once their matrix can be inverted. The agent always acts with a probability distribution (greedy, epsilon-greedy, or Boltzmann with at least exp(-20)/n for every action). Online it learns from every pair of consecutive steps once. Several expectations fail: the last step of an episode is linked to the first of the next, batch learning links the last recorded step to the first and raises TypeError for the learners that need the next action, exploration never decays while learning online, and reset lowers the learning rate further instead of restoring it.", "quantifier": "for all numbers of actions and features, weights, traces, rewards, discounts, rates, draws, and all sequences of events or agent calls", "why_tests_cant": "Tests run one agent on one task and look at the reward; that a table never leaves its bounds, that a trace equals a closed sum after any number of visits, or which pairs of steps are ever learned from are statements about all histories.", "anchors": ["pybrain/rl/learners/valuebased/linearfa.py", "pybrain/rl/agents/linearfa.py"]}
{"id": "C67", "title": "Policy gradients: derivatives of the log likelihood, baselines, and the step they make", "statement": "expln is positive, increasing and explnPrime is its derivative everywhere. The Gaussian layer backs up exactly the derivatives of the log likelihood in the mean and in the deviation's parameter (autoalpha multiplies them by the variance), the state dependent layer with one sigma likewise; the exploring learner accumulates the variance times the score when all deviations are equal. Over any session of episodes the recorded rows stay aligned with episodes and returns. REINFORCE's baseline is the unique one of least spread; its gradient ignores a constant added to all returns, scales with them, and does not depend on the order of the episodes. ENAC's gradient solves the least squares regression, finds exactly linear returns again and ignores added constants. The step is shortened by one common factor so that no entry exceeds 1000, and the descent's values remain the network's parameters over all calls. What does not hold: REINFORCE steps against its estimate, so the reward is minimised; the rows are running sums because derivatives are never cleared, and GaussianLayer divides what it had accumulated as well; unequal deviations can turn the sign of a shared weight's derivative; with a sigma for each weight autoalpha is swapped between parameters and input; StateDependentExplorer's backward pass fails unless the state has length one; a parameter with zero derivatives becomes nan; large negative entries are not shortened; logging an episode without learning credits rows to the wrong returns.", "quantifier": "for all numbers of parameters, actions, episodes and steps, all controllers with a correct backward pass, observations, draws, rewards, rates, and all sequences of agent calls", "why_tests_cant": "Tests run a few random episodes and at best look at a noisy reward; that a stored number is the derivative of a likelihood, that a baseline is the best of all, or that rows and returns stay aligned for every session cannot be sampled.", "anchors": ["pybrain/rl/learners/directsearch/policygradient.py:81-125", "pybrain/rl/learners/directsearch/reinforce.py:15-33", "pybrain/rl/learners/directsearch/enac.py:15-43", "pybrain/structure/modules/gaussianlayer.py:28-41", "pybrain/structure/modules/statedependentlayer.py:47-82", "pybrain/rl/explorers/continuous/normal.py:43-54", "pybrain/rl/explorers/continuous/sde.py:55-80", "pybrain/rl/agents/learning.py:49-90", "pybrain/tools/functions.py:80-116"]}
{"id": "C68", "title": "The optimizers that adapt a search distribution (SNES, xNES, CMA-ES, FEM) follow the strategies they name", "statement": "For every objective (also noisy), dimension, batch of random draws and number of generations: the utilities of SNES and xNES depend only on ranks, sum to 1 (or to 0 with the baseline), never decrease with fitness and are least for the worse half; a SNES session is the separable natural evolution strategy run directly on the draws (the detour through stored evaluations, pointers and base2sample loses nothing), its scales stay positive, minimising f is maximising -f, clearing the stored evaluations changes nothing, what is stored are the user's own values; it is invariant under order preserving changes of the objective and under scaling and translation of each coordinate; an xNES session is the exponential strategy, and the inverse and the log-determinant it keeps beside A remain exactly that; CMA-ES has admissible default parameters in every dimension, recombines the mu best offspring, keeps its covariance matrix symmetric positive definite, is invariant under translation and order preserving changes, and its offspring have covariance C when the eigenvectors are orthogonal; FEM keeps its covariance positive definite and its center within any box that contains what it has seen, and is invariant under order preserving changes.  Where the code departs from this (a plateau, initVariance, eig instead of eigh, a missing division by the step size, an additive constant ending a run, settings that are overwritten or have no effect, a start point without influence) the departure is proved.", "quantifier": "all objectives, dimensions, batches of draws and numbers of generations", "why_tests_cant": "Tests run one optimizer with one seed on one function; they cannot compare two runs over all draws, and a loss of positive definiteness or of an invariance shows only as slower convergence.", "anchors": ["pybrain/optimization/distributionbased/snes.py:12-116", "pybrain/optimization/distributionbased/xnes.py:14-121", "pybrain/optimization/distributionbased/cmaes.py:16-138", "pybrain/optimization/distributionbased/fem.py:15-268", "pybrain/optimization/distributionbased/rank1.py:37-56", "pybrain/tools/rankingfunctions.py:10-137"]}
{"id": "C69", "title": "Coevolution: bookkeeping of games, who meets whom, fitness, selection, and the limits of a run", "statement": "In a session of any number of generations of the three coevolution optimizers (one population, hosts and parasites, many populations) nothing raises for sensible settings; the dictionaries of results and opponents are exactly a ledger of genuine games, one each way per meeting and never against oneself. The relative score of two players is the mean over all games of both directions: antisymmetric, zero before they met, within the range of the evaluator, and exact for an antisymmetric evaluator. Populations keep their size and have no duplicates, roles rotate, the hall of fame has one first-best member of each generation, the selected are the fittest and everybody new is a mutant of one of them; the fitness is the stated sum (shared fitness gives each beaten parasite one point in all), and shared sampling is the greedy cover. A run is generations until the first moment a limit is met and stays within it. Where the code departs from this: averaging with parents is lost without elitism and replaces the elite with it; shared sampling knows nothing in one non-elitist population; many populations exceed their budget and extend the caller's seeds; a population of one never ends; the score 'over all evaluations' is weighted by repetition; the documented example of shared fitness is not obtained.", "quantifier": "all evaluators (also noisy), genomes, mutations, streams of random numbers, settings, seeds and numbers of generations", "why_tests_cant": "The optimizers are random and slow: the only checks in the repository are two printed examples, one of which is not met. Statements about every ledger, schedule and stream of random numbers cannot be sampled.", "anchors": ["pybrain/optimization/populationbased/coevolution/coevolution.py:9-272", "pybrain/optimization/populationbased/coevolution/competitivecoevolution.py:10-94", "pybrain/optimization/populationbased/coevolution/multipopulationcoevolution.py:10-65"]}
{"id": "C70", "title": "Mixture density networks: the layer, the error and the errors sent back", "statement": "The layer turns any activations into positive mixing coefficients that sum to 1, positive deviations, and unchanged means. For one-dimensional targets the error of a sample is exactly the negative log likelihood of the mixture. Along every differentiable curve of activations the derivative of the error is minus the sum of what the trainer sends back times the movement, except that the part of the deviations must still be multiplied by the deviation: the trainer differentiates by the deviation and the layer passes that on unchanged although it applied exp. The posteriors are positive and sum to 1, the errors of the coefficients lie between -1 and 1 and cancel. Over a sequence the errors add up and every time gets its own, last first. Refuted: the errors are minus the gradient in the activations; in more than one dimension the error is the negative log likelihood (every Gaussian is too large by the power D-1 of its deviation, so a single Gaussian is trained towards a deviation equal to the distance of the target, not to that over the square root of D).", "quantifier": "all numbers of Gaussians and dimensions, activations (below 500 in absolute value where exp matters), targets, directions, sequences", "why_tests_cant": "A test trains one small network and sees the error fall; a missing factor in one block of the gradient or in the normalisation still lets it fall, and a derivative over the reals cannot be sampled.", "anchors": ["pybrain/structure/modules/mixturedensity.py:8-45", "pybrain/supervised/trainers/mixturedensity.py:8-89"]}
{"id": "C71", "title": "Networks for boards: sweeps, borders, convolution, and the symmetries of the board", "statement": "A swiping network over a grid of any number of dimensions, with the borders of BorderSwipingNetwork and the direct link of CaptureGameNetwork, is built without error and computes the sweeps it stands for: in each of the 2^D directions every unit combines the input at its place with the units it comes from, or the border, and all directions are added up for the output. There is always exactly one solution. Outputs follow every reflection of the board and every exchange of equal dimensions that the shared weights allow: with direction symmetric weights all reflections, with dimension symmetric weights also exchanges (with individual borders up to two dimensions). Views on a flat layer never overlap. Weights for new borders are taken from known borders nearer the corner, stay between them, and on a square board are copied from the nearest. A convolutional network computes at each place the features of its window; ConvolutionalBoardNetwork computes the same of the board framed by trainable values, one output for each field. What does not hold: without dimension symmetry individual borders break reflections; with three dimensions the borders break the exchange of dimensions although they are declared equivalent; a window of one field or a board of one field raises.", "quantifier": "all numbers and sizes of dimensions, layer sizes, weights, activation functions of the hidden and output units, inputs, predefined border weights, reflections and exchanges of dimensions", "why_tests_cant": "A test looks at one network on one board; that two runs on a board and its mirror image agree for all weights, in all dimensions, and that the only exceptions are those named, is a statement about all of them.", "anchors": ["pybrain/structure/networks/swiping.py:45-118", "pybrain/structure/networks/borderswiping.py:33-105", "pybrain/structure/networks/custom/capturegame.py:54-109", "pybrain/structure/networks/custom/convboard.py:18-58", "pybrain/structure/networks/convolutional.py:20-54", "pybrain/structure/modulemesh.py:34-45", "pybrain/utilities.py:402-439"]}
{"id": "C72", "title": "Restricted Boltzmann machines: activations, contrastive divergence, and where weights go", "statement": "The hidden activations are the conditional probabilities of the energy model with the same weights, for every real visible vector. The raw update of a batch is the derivative, in every weight and bias, of the mean free energy of the reconstructions less that of the rows. The inverse machine has the parameters of the machine after any training session. With a single visible or hidden unit the two are the two conditionals of one Boltzmann machine throughout, and the first step on a batch moves every weight by the rate times its own derivative less the decay. Within a batch every parameter moves by the momentum weighted sum of the raw updates of that batch alone; biases drift by at most rate / (1 - momentum) for each iteration. What does not hold: with two of each or more the inverse is not the transposed machine (no Boltzmann machine has both as its conditionals) and a weight receives the update of another, also of opposite sign; BernoulliLayer fires when it should not, and only then; DeepBeliefTrainer.train raises for every network.", "quantifier": "all numbers of units, parameters, rows, draws, configurations, batches and iterations (activations within the unclipped range of the sigmoid where probabilities or derivatives are meant)", "why_tests_cant": "A test trains one machine with one seed and at best looks at a reconstruction; whether a number is a derivative of a free energy, or belongs to the weight it is added to, cannot be seen from samples. The repository's own check of the inverse is switched off.", "anchors": ["pybrain/structure/networks/rbm.py:11-81", "pybrain/unsupervised/trainers/rbm.py:12-189", "pybrain/unsupervised/trainers/deepbelief.py:56-116", "pybrain/structure/modules/samplelayer.py:18-21"]}
{"id": "C73", "title": "Memetic search: topologies by mutation, weights by local search, and what is reported", "statement": "In every session of MemeticSearch, InverseMemeticSearch and WeightMaskGuessing: each evaluation is of the parameters of the individual it is booked for; the best fitness is optimal over all evaluations and belongs to the individual kept as best; the number of evaluations is within maxEvaluations. A step of memetic search tries the topology mutation of the best individual, first with the weights of the best, then with at most localSteps - 1 other weights, and with no other mask. The two mutation operators of the class are restored after every step, however a session ends. What does not hold: the parameters reported (for a start given as an array) are those evaluated last, not those of the reported fitness; InverseMemeticSearch never evaluates another topology than the initial one; a divergence inside one of its steps leaves mutate and topologyMutate exchanged for the whole process; of the start point only its length matters.", "quantifier": "all evaluators (also changing or diverging), mutations, random masks, settings and numbers of steps", "why_tests_cant": "A test runs one search and sees a fitness; which array goes with it, whether masks ever change, or the state of class attributes after a failure are not looked at, and the claims are about all sessions.", "anchors": ["pybrain/optimization/memetic/memetic.py:10-62", "pybrain/optimization/memetic/inversememetic.py:6-12", "pybrain/optimization/randomsearch.py:6-23", "pybrain/optimization/hillclimber.py:8-32", "pybrain/optimization/optimizer.py:194-343", "pybrain/structure/evolvables/maskedparameters.py:16-104"]}
{"id": "C74", "title": "Copies that share structure: CheaplyCopiable and MaskedModule", "statement": "Cheap copies of a module without memory answer every sequence of operations (copying, activating, mutating, randomizing, setting and reading parameters, in any order, errors included) exactly as independent modules would. Copies of any module do so too, derivatives included, if a copy that was not the last to use the shared buffers or derivatives resets them first. Copies of a masked module do so if each is activated only while it is the one changed last. What does not hold: interleaved recurrent copies disturb each other; all copies show the same derivatives; a copy given another's parameter array keeps that array, so both change; a masked copy that is activated after another was changed computes with the other's parameters, so re-evaluating the best individual evaluates the challenger.", "quantifier": "all modules, parameters, numbers of copies and sequences of operations", "why_tests_cant": "A test makes one copy and compares one output; sharing shows only in particular interleavings, and equivalence with independent modules is a statement about all of them.", "anchors": ["pybrain/structure/evolvables/cheaplycopiable.py:7-81", "pybrain/structure/evolvables/maskedmodule.py:7-28", "pybrain/structure/evolvables/topology.py:8-43", "pybrain/structure/parametercontainer.py:42-86"]}
{"id": "C75", "title": "Playing against an opponent: what the two-player tasks measure", "statement": "CaptureGameTask, GomokuTask and PenteTask: an episode is one game (black first, the players in turn, to its end) and its return is the worth of that end to the agent, counted once, whoever started; alternateStarting changes colours exactly once per game; the fitness is the average over averageOverGames such games (not with batchSize > 1); a win is worth more than a loss and an early win more than a late one if movesDone stays in range (refused moves count, so it need not). HandicapCaptureTask: the games follow the documented ladder, no lookup fails, the score is that of the highest handicap played - but handicap 1 is never left downwards, the scale goes below -1, and the 80 % rule is bent by quick losses. RelativeCaptureTask and RelativeGomokuTask: which games are played from which positions with which weight and temperature, the value is their weighted average, within [-1, 1]; it is not anti-symmetric, and Gomoku draws count as defeats.", "quantifier": "all games given by their rules, all players (stateful, random), all numbers of games, all sequences of game results, all task settings", "why_tests_cant": "The claims are about all sequences of games and all players; a test fixes one opponent and a few seeds, and the repository's tests only check that the tasks run.", "anchors": ["pybrain/rl/environments/twoplayergames/tasks/capturetask.py:12-100", "pybrain/rl/environments/twoplayergames/tasks/gomokutask.py:13-103", "pybrain/rl/environments/twoplayergames/tasks/handicaptask.py:14-118", "pybrain/rl/environments/twoplayergames/tasks/relativetask.py:12-146", "pybrain/rl/environments/twoplayergames/tasks/relativegomokutask.py:12-117", "pybrain/rl/environments/episodic.py:27-73"]}
{"id": "C76", "title": "The players of the board games: which moves they choose, and that games end", "statement": "RandomCapturePlayer and RandomGomokuPlayer choose every empty point with the same chance; NonSuicidePlayer chooses evenly among the moves that are no suicide if there is one; KillingPlayer wins at once whenever it can and otherwise plays like the player it extends. Any two players that put their stones on empty points bring every capture game and every game of Gomoku to an end within a bound on the moves; with suicide disabled the random player may choose refused moves, careful players still finish, and on a one-point board nobody ever does. ModuleDecidingPlayer sees the board from its own side; with greedySelection it takes evenly one of the empty points with the greatest output; with a temperature it draws by the Gibbs weights clipped at 40 temperatures, which leaves the occupied points a positive chance, so it can fail instead of playing by the rules; negative outputs raise; the index conversion of the Gomoku player is right exactly on square boards.", "quantifier": "all board sizes, all reachable positions, all players (stateful, random) keeping the rules, all modules, temperatures and random draws", "why_tests_cant": "The chances are about all draws and the ends about all games; the failures of the module player need draws of probability below e^-40 or boards that are not square, which no test of the repository uses.", "anchors": ["pybrain/rl/environments/twoplayergames/capturegameplayers/randomplayer.py:8-11", "pybrain/rl/environments/twoplayergames/capturegameplayers/nonsuicide.py:6-14", "pybrain/rl/environments/twoplayergames/capturegameplayers/killing.py:6-15", "pybrain/rl/environments/twoplayergames/capturegameplayers/moduledecision.py:13-68", "pybrain/rl/environments/twoplayergames/gomokuplayers/randomplayer.py:8-11", "pybrain/rl/environments/twoplayergames/gomokuplayers/killing.py:6-14", "pybrain/rl/environments/twoplayergames/gomokuplayers/moduledecision.py:13-68", "pybrain/rl/environments/twoplayergames/capturegame.py:254-264", "pybrain/rl/environments/twoplayergames/gomoku.py:142-152", "pybrain/utilities.py:40-75"]}
{"id": "C77", "title": "Exploring agents with discrete actions, and neuro-fitted Q-learning", "statement": "Whatever is assigned to a value-based learner in whatever order, its explorer knows its module (not if the module has no parameters; explorer = None raises but takes effect; a shared explorer knows the last module). The greedy action is a best one (a table: evenly among them, a network: the first). After any history an EpsilonGreedyExplorer acts randomly exactly when its draw is below epsilon * decay^k, k the number of actions explored so far, and the chances of random actions sum to at most epsilon / (1 - decay). A BoltzmannExplorer draws with Gibbs probabilities at temperature tau * decay^k, clipped at 40 temperatures: it never becomes greedy, and is nearly uniform when the values are close compared with the temperature. A DiscreteStateDependentExplorer ignores epsilon and decay and follows a disturbed copy of the module made at the start of the episode; what is learned later has no influence, and without episodes nothing learned ever has. NFQ fits the network to one sample per transition, half way to the one-step return; the last reward of an episode is never used; fewer than two transitions raise; if every action was tried in every reached state and the fits are exact, the values converge geometrically to the only solution of the optimality equation.", "quantifier": "all sequences of assignments, all histories of acting, learning and new episodes, all modules (tables, networks as functions), all draws, temperatures, data sets", "why_tests_cant": "The statements are about all histories and all draws and a limit; the tests only run single examples with seeds.", "anchors": ["pybrain/rl/explorers/explorer.py:35-45", "pybrain/rl/explorers/discrete/egreedy.py:15-32", "pybrain/rl/explorers/discrete/boltzmann.py:16-43", "pybrain/rl/explorers/discrete/discretesde.py:18-62", "pybrain/rl/explorers/discrete/discrete.py:13-27", "pybrain/rl/learners/valuebased/valuebased.py:19-45", "pybrain/rl/learners/valuebased/interface.py:29-94", "pybrain/rl/learners/valuebased/nfq.py:13-44", "pybrain/rl/learners/learner.py:31-51", "pybrain/rl/agents/learning.py:45-68"]}
{"id": "C78", "title": "Carts and poles: the mechanics, what the balancing tasks pay, and where they look at the wrong thing", "statement": "The derivatives of CartPoleEnvironment are the unique solution of the equations of motion of a cart carrying a homogeneous pole, without a division by zero, and along a motion the energy changes by the work of the force; a simulation step commutes with mirroring and with shifting the cart, and agrees with the Taylor polynomial of degree four on linear systems. For a single observable pole, every balancing task applies a force within 50 N, stops exactly when the pole or the track is lost or the steps are used up, pays what it says, ends within N steps, and sums the rewards of the steps; the total of BalanceTask lies in the stated bounds and is the same for the mirrored agent. Refuted: integer division of 4/3 breaks the equations; losing after the N steps is rewarded; leaving the track with an upright pole is not punished by JustBalanceTask and rewarded by the discrete tasks; with two poles the fall of one is not punished while the other is upright; DoublePoleEnvironment cannot be observed through BalanceTask, pays the previous observation whatever the action, and moves two different carts; the non-Markov environments pass velocities and angles as positions; the linearised cart uses the transposed matrix, so that the cart does not move, and its reward is a cost.", "quantifier": "For all physical constants that are positive, all states, forces, step sizes, actions, modules with memory, random starts, numbers of steps and lengths of episodes.", "why_tests_cant": "Tests run one simulated episode from one start; they cannot establish a conservation law, symmetry for all states, bounds on returns for all policies, or that a task looks at the right quantity in every state.", "anchors": ["pybrain/rl/environments/cartpole/cartpole.py:31-143", "pybrain/rl/environments/cartpole/balancetask.py:13-255", "pybrain/rl/environments/cartpole/doublepole.py:7-52", "pybrain/rl/environments/cartpole/nonmarkovpole.py:6-22", "pybrain/rl/environments/cartpole/nonmarkovdoublepole.py:7-27", "pybrain/rl/environments/episodic.py:27-72"]}
{"id": "C79", "title": "Classic control tasks: when an episode ends, what it pays, and whether the simulation is the system it names", "statement": "An episode of MountainCar or AcrobotTask runs, has reached its goal or has used up its steps; it is over two actions after the goal or with the last step, and every evaluation ends within two actions of the maximum. The car keeps to its track and speed limit and an episode is worth 1 exactly if the goal was reached; the arms keep to their ranges, the simulation divides by no zero and commutes with mirroring. With integer division XORTask pays 1 for the xor of two bits of the counter and the chain task leads on with right and back with wrong actions. MinimizeTask pays minus the square of the next observation and ends with the sixteenth question. The ship keeps to its ranges and an episode of N steps is worth between -25 and 100. Refuted: the total survives a reset; an experiment is paid the goal three times; with resetOnSuccess an evaluation never ends; there is no reward before the first action; the Coriolis term of the acrobot has the wrong sign; the height of the tip is wrong, so that folded arms succeed and straight ones do not; the single arm starts at its highest point and wins by falling; XORTask raises TypeError under true division; observing SimpleEnvironment twice moves it twice; its noise is appended, not added; the total of MinimizeTask lags by an action; the ship's drag depends on the side it heads to.", "quantifier": "For all states, actions, policies with memory, lengths of episodes, random numbers and configurations of the tasks.", "why_tests_cant": "Tests run a few episodes with one agent; they cannot exclude a run that never ends, show a range for all policies, compare the accelerations with the equations of motion at every state, or notice that a reward is counted again.", "anchors": ["pybrain/rl/environments/classic/mountaincar.py:19-99", "pybrain/rl/environments/classic/acrobot.py:17-214", "pybrain/rl/environments/classic/xor.py:9-78", "pybrain/rl/environments/simple/environment.py:8-42", "pybrain/rl/environments/simple/tasks.py:7-38", "pybrain/rl/environments/shipsteer/shipsteer.py:12-97", "pybrain/rl/environments/shipsteer/northwardtask.py:8-52", "pybrain/rl/environments/episodic.py:27-72"]}
{"id": "C80", "title": "Slices, swipes, blocks and parameter views of multi-dimensional networks put every number in exactly one place", "statement": "A module slice that lies within its base gives its connections exactly the addressed part of the base's buffers; neighbouring slices share nothing and leave nothing out (a slice of a slice raises AttributeError, and slices of negative size or outside the base are accepted). A swipe over the blocks of an array is a permutation which sends every place to its mirror image for the chosen corner and is its own inverse; a multi-directional network over sides that are whole numbers of blocks has one layer for each of the 2^n corners and brings every layer's outputs back to the places of the inputs; sides that are no whole number of blocks are refused, and the default blockshape of None raises TypeError. permuteToBlocks puts every element in two and three dimensions at its place in the array of blocks when blocks divide the sides (else elements are lost, and under true division the docstring's case fails). The parameter views of an MdrnnLayer divide up the parameters in one dimension; in more dimensions output weights are also recurrent weights and the last parameter is in no view. Gate layers compute their function after a reset; without one they return the sum of all outputs so far.", "quantifier": "for all modules, slices, connections, shapes, block shapes, directions, arrays, layer sizes, parameters and inputs", "why_tests_cant": "index arithmetic over arbitrarily many dimensions and block shapes; tests try one shape, while the claims are bijections and round trips over all of them", "anchors": ["pybrain/structure/moduleslice.py:11-38", "pybrain/structure/connections/connection.py:16-54", "pybrain/structure/modules/mdrnnlayer.py:34-108", "pybrain/structure/networks/mdrnn.py:24-112", "pybrain/utilities.py:506-553", "pybrain/structure/modules/gate.py:20-91"]}
{"id": "C81", "title": "Self-organizing maps, cluster seeds, left-ordered matrices and principal components do what they say to every data set", "statement": "A KohonenMap answers with the place of the neuron nearest to the input, the first of them row by row. A round of training moves every neuron straight towards the input, the winner by a hundredth of the way, others less the more steps away on the grid, none outside the shrinking neighbourhood; no neuron gets farther from the input, all stay in the box of inputs and first neurons, and with one input repeated the winner stays the winner and converges to the input. With outputFullMap nothing is ever written to the output. kinit chooses k seeds out of the data, each the data point that makes the sum of squared distances to the nearest seed least; the sum never grows, seeds are new as long as some point is no seed, and as many seeds as different points are all the points (but seeds may be equal otherwise, and k = 0 gives one). leftordered keeps the columns, sorts them by their binary numbers from the greatest, and is a canonical form. generateIBP returns the dishes that somebody took, none empty, with chances that only fall. pca takes components of greatest eigenvalues, in reverse order of the eigenvectors, not of the eigenvalues, and takes all for dim = 0; makeCentered moves the mean to the origin, and reduceDim does not depend on where the data lie and returns centered scalar products with the components.", "quantifier": "for all maps, neurons, inputs and sequences of inputs, all data sets, seeds, matrices, random draws, eigenvalues and dimensions", "why_tests_cant": "convergence, greedy optimality over all candidate seeds, canonical forms and tie breaking are statements over all data; tests look at one random run", "anchors": ["pybrain/structure/modules/kohonen.py:18-78", "pybrain/auxiliary/kmeans.py:23-46", "pybrain/tools/ibp.py:10-43", "pybrain/auxiliary/pca.py:16-69"]}
{"id": "C82", "title": "Least-squares value estimation is exact whenever the features allow it, and least-squares policy iteration with complete features finds an optimal policy", "statement": "trueFeatureStats gathers, in both of its ways and whatever MAT_LIMIT, the sums over all transitions of the feature products and rewards; with a proportion of the states it counts the transitions that arrive in a sampled state, not those that start there as documented, and a feature map with one row per state, as documented, raises ValueError. If the value function (action values) can be expressed by the features, its weights solve the equations that LSTD_values (LSTD_Qvalues) hands to lstsq, and the estimate is exact if they have one solution, terminal states included. With as many independent features as states the equations always have exactly one solution and the estimates satisfy the Bellman equation; every stochastic transition matrix has exactly one value function for discounts below 1. LSPI_policy always returns a policy with its own transition matrix; with complete features and enough iterations LSPI_policy and LSTD_PI_policy return an optimal policy.", "quantifier": "for all numbers of states, features and actions, transition matrices, rewards, feature maps, discounts, policies, samples, limits and least-squares solvers", "why_tests_cant": "Tests compare a few estimates numerically; that both vectorizations agree, that exact values are fixed points and that the iteration ends in an optimum need linear algebra over all sizes.", "anchors": ["pybrain/rl/learners/modelbased/leastsquares.py:26-58", "pybrain/rl/learners/modelbased/leastsquares.py:61-98", "pybrain/rl/learners/modelbased/leastsquares.py:101-127"]}
{"id": "C83", "title": "Gaussian process predictions are the Bayesian ones with a valid covariance, and the recursive inverse of the Fisher information inverts every block", "statement": "The kernel of GaussianProcess is the radial basis function: symmetric, between 0 and sigma_f squared, and positive semidefinite on any points. For a trained process (with or without automatic noise) the linear system always has exactly one solution; the predicted means are those of its solution, at a sample they differ from the target by noise times weight, and they are the prior mean if all targets are. The predicted covariance is symmetric, positive semidefinite and has a diagonal between 0 and sigma_f squared. After any history of training, adding, resetting and drawing, the process holds exactly the samples added since, and what is drawn from belongs to them; but changed settings are ignored until the next sample, an untrained process ignores its mean and kernel and answers for the old grid, and the automatic noise depends on the order of the samples, is zero if the last input is left of the first, and raises for one sample. blockCombine builds the block matrix when the result is square and exchanges the sizes otherwise. calcInvFisher returns the inverse of every block that calcFisherInformation returns, for every positive definite covariance.", "quantifier": "for all numbers of samples, inputs and test points, hyperparameters, histories, solvers, block shapes and positive definite matrices", "why_tests_cant": "Positive semidefiniteness of a kernel, uniqueness of the solution and a recursion over all dimensions are statements of linear algebra and analysis that numerical examples do not settle.", "anchors": ["pybrain/utilities.py:592-607", "pybrain/tools/fisher.py:9-23", "pybrain/tools/fisher.py:27-53", "pybrain/auxiliary/gaussprocess.py:22-76", "pybrain/auxiliary/gaussprocess.py:78-152"]}
{"id": "C84", "title": "The remaining maze tasks: shuttle docking, cheese maze, 4x3 maze, 89-state maze", "statement": "Shuttle docking: whatever is done and drawn, nothing fails, the ship stays in the corridor and looks along it, each step is counted, the new station is entered only by a Backup with the old station in front, and after five steps at the earliest; each Backup turns, backs or does nothing with the documented chances, and each observation has exactly one entry set; but Forward never moves the ship, a Backup into the wall is not punished while one that does nothing is punished again for an earlier Forward, nothing is ever \"black\", and the rewards are never added up. Turning mazes: without noise the k-th sensor tells whether a Forward fails after k turns to the left, but as the maze is drawn the turn to the left goes clockwise. Cheese maze: exactly one entry of the observation is set for any walls and any noise, cells look alike exactly in the stated groups, and no rule that looks only at the current observation ever finds the cheese from the left arm. 4x3 maze: the documented bad, absorbing cell is never punished nor absorbing, and both walls set three entries of the observation. 89-state maze: there are 89 states. From every free cell of these mazes the goal can be reached.", "quantifier": "all sequences of actions, all draws of the noise, all resets, all memoryless policies, all cells and directions, and for the sensors and the drawing all enclosed mazes", "why_tests_cant": "Tests run some episodes with random actions; they cannot show that no sequence of actions and draws leaves the corridor, adds up a reward or docks forwards, nor that no memoryless policy solves the cheese maze.", "anchors": ["pybrain/rl/environments/mazes/tasks/shuttle.py", "pybrain/rl/environments/mazes/tasks/cheesemaze.py", "pybrain/rl/environments/mazes/tasks/maze4x3.py", "pybrain/rl/environments/mazes/tasks/maze89state.py", "pybrain/rl/environments/mazes/tasks/maze.py", "pybrain/rl/environments/mazes/polarmaze.py", "pybrain/rl/environments/mazes/maze.py"]}
{"id": "C85", "title": "Evolino networks: genomes, washout, extrapolation, genome filters", "statement": "A network's genome has one chromosome for each LSTM cell with four weights for each source, holds each weight into a gate at a fixed place, and determines all the weights into the layer; a genome of that shape can be set and is then the network's genome, one with a missing or too short chromosome raises IndexError, and weights beyond those needed are dropped without an error; the output weight matrix read back is the one set, row by row. Whatever was done with the network before, extrapolate resets it, feeds the sequence scaled and delayed by one step, and returns as many of its own outputs, each fed back, as asked for; washout gives the raw outputs of the same run; generating goes on where it stopped. But the scaling is done in place, so after generating the output layer's buffer holds scaled outputs. A filter keeps the form of an arbitrarily nested genome and changes each float once with its own draw; randomization stays within the bounds and mutation without noise changes nothing.", "quantifier": "all numbers of cells and connections, all weights and genomes, all recurrent networks, all earlier uses of the network, all sequences and lengths, all nested genomes and draws", "why_tests_cant": "Tests set one genome of one network and extrapolate one sequence; they cannot show that no earlier use of the network shows in an extrapolation (the network keeps a stale offset across resets), nor that the index arithmetic is right for every layer size.", "anchors": ["pybrain/structure/modules/evolinonetwork.py:15-201", "pybrain/supervised/evolino/gfilter.py:25-121", "pybrain/supervised/evolino/variate.py:7-46"]}
{"id": "C86", "title": "Multi-objective benchmarks: Pareto sets and constraints; Lennard-Jones clusters", "statement": "The Pareto-optimal points are exactly [0, 2] for Schaffer's function, the segment between the two centres for Fonseca and Fleming's in any dimension, the edge x1 = 0 of the box for Deb's, the line x1 = 6 - 9 x0 and then that edge for the constrained Deb, and the diagonal up to 3 and then the edge x1 = 3 for Binh and Korn's, whose second constraint never matters; Poloni's objectives are at most -1 and 0. The feasibility flag says whether all the constraints hold, and Tanaka's are symmetric; but an infeasible point reports every constraint, also those it meets, and the number of reported values changes; a constrained function reports its own last evaluation, while one without constraints reports whatever another instance left in the class. The Lennard-Jones value is the sum over all pairs of atoms of 4 (d^-12 - d^-6), does not change when the cluster is moved or renumbered, is at least -N (N - 1) / 2, and for up to four atoms the table's value is the minimum and is reached.", "quantifier": "all points, all dimensions of Fonseca and Fleming's function, all numbers and positions of atoms, all displacements and permutations", "why_tests_cant": "Tests evaluate a few points; that no point at all dominates the stated set, or that no configuration lies below the bound, are statements about all points.", "anchors": ["pybrain/rl/environments/functions/multiobjective.py:12-255", "pybrain/rl/environments/functions/lennardjones.py:9-37"]}
{"id": "C87", "title": "Small tools: reading sparse and raw data, adaptive resampling, choosing files, keyword arguments", "statement": "A line of a sparse data file with ascending indices gives the vector with the listed values at their places and zeros elsewhere, all rows of a file get the length of the longest, and an index that does not ascend is silently stored at the next place; the number of samples and the class histogram are right for the first file, but a second file is counted on top of the first although its data replaces it. The label of a raw file's line is the place of its first nonzero target, and a line of zeros takes the label of the line before. The adaptive resampler never fails and keeps between one sample and the maximum whatever the noise is; it averages and adapts exactly at the calls that are positive multiples of the batch size, upwards when enough recent values lie strictly between the two medians and downwards when none does; with batches of one it only grows. Choosing files by tag and extension gives exactly the stems of the matching names (and none at all for an empty extension), choosing strings gives exactly those with all (or with one) of the required parts, and each keyword argument is set to the given value, else its default, and touches no other attribute.", "quantifier": "all data lines and files, all sequences of noisy values, batch sizes, factors and thresholds, all lists of names, all lists of keyword descriptions", "why_tests_cant": "Tests read one small file; the state left over between files, the bounds under every sequence of noisy values, and the exactness of the filters are statements about all inputs.", "anchors": ["pybrain/tools/svmdata.py:9-124", "pybrain/tools/aptativeresampling.py:8-41", "pybrain/tools/filehandling.py:8-39", "pybrain/tools/kwargsprocessor.py:5-48"]}
{"id": "C88", "title": "Universal search ends where it should only if every complexity has programs that end; nobody scores in the simple race", "statement": "When every complexity up to that of the simplest solution has programs and these end, universal search finds the solution, in the phase after its complexity; a complexity without programs ends it with a KeyError, and a program that never returns stops it, since the time limit is not enforced. The simple race sends one of nine commands for an action (three throttle levels times three steering levels), from the first reset message on and not in the step after a reset; a data message with the same way point is taken over, and a point goes to the car nearer to the way point that was reached, the second one in a tie; but the way point after the next is never stored, so that reaching a way point raises an exception and the total reward stays zero on every run, unless a way point has the coordinate zero. The example controller always turns and never brakes.", "quantifier": "all enumerations by increasing complexity with finitely many programs of each, all programs, all sequences of actions and server messages, all actions", "why_tests_cant": "Tests would need a server and a solvable problem; which complexity is reached, and that no sequence of messages whatever leads to a score, are statements about all enumerations and runs.", "anchors": ["pybrain/rl/learners/meta/levinsearch.py:4-50", "pybrain/rl/environments/simplerace/simpleracetcp.py:11-112", "pybrain/rl/environments/simplerace/simpleracetask.py:8-10", "pybrain/rl/environments/simplerace/simplecontroller.py:12-32"]}
{"id": "C89", "title": "The flexible cube: springs, momentum, floor, and what its tasks pay", "statement": "The springs an action sets, and the edge sensors read, are exactly the twelve edges of the cube, in the same order; wanted lengths stay between 14 and 26 whatever the action. The springs obey Newton's third law in every reachable state: before the floor, the momentum of the cube only changes by gravity and damping, so that an agent cannot move the middle of a cube in the air; a cube that wants its present lengths falls rigidly; after a step no vertex is below the floor, and one that hits it goes up again without any speed along it. The tasks map actions in [-1, 1] to lengths in [14, 26] and limit the change per step; the punishment is zero exactly when no edge is longer than 30; walking pays at the end only, and jumping pays the greatest height before the last step. But a reset keeps the old centre of gravity, so that the walking tasks first see the distance of the last episode; a new cube has already fallen for one step; and the task's memory of the action winds up beyond what the environment accepts.", "quantifier": "all reachable states of the cube, all actions, all starting heights, all episodes", "why_tests_cant": "A test steps the simulation with a few actions; conservation of momentum, the bounds on the springs and the states a reset leaves behind concern every state that can be reached.", "anchors": ["pybrain/rl/environments/flexcube/environment.py:12-152", "pybrain/rl/environments/flexcube/sensors.py:40-97", "pybrain/rl/environments/flexcube/tasks.py:24-121", "pybrain/rl/environments/flexcube/tasks.py:175-204"]}
{"id": "C90", "title": "The Evolino trainer", "statement": "Training for n epochs follows one schedule: an epoch begins with a burst mutation exactly when the nBurstMutationEpochs - 1 epochs before it are there and none of them brought a record or began with a burst; then the population is evaluated on the evaluation's data, selected from and refilled. The maximal fitness is the greatest of all epochs and never goes down. The documented wait is one epoch longer than the real one: with 1, every epoch bursts, even if each is a record. setData changes nothing about the training, setDataset does, trainOnDataset raises. Splitting a sequence loses nothing; with a number between 0 and 1 the washout is that share rounded down, and something is left to train on; the documented two-value ratio, the default, raises TypeError for every data set with a sequence.", "quantifier": "every history of fitness values, every population and filters, every wait, every data set, every ratio", "why_tests_cant": "the schedule depends on the whole history of fitness values; a test runs a few epochs with the default wait, which never bursts", "anchors": ["pybrain/supervised/trainers/evolino.py:113-138", "pybrain/supervised/trainers/trainer.py:18-37", "pybrain/supervised/evolino/filter.py:54-62"]}
{"id": "C91", "title": "The generations of the multi-objective genetic algorithms", "statement": "After every generation exactly the members of the population have a fitness. A member that the generation before had keeps its fitness, however noisy the evaluation, and is not evaluated again; the number of evaluations of a run is the number of newcomers over all generations, every copy counted. Without noise every fitness is the value of the function. With elitism no generation fails and bestEvaluable and bestEvaluation are the front of the population with the matching fitness values. Without elitism it does not work: the first generation raises TypeError, and a later one would raise KeyError as soon as one of the best so far has left the population.", "quantifier": "every sequence of populations, every noisy evaluation, every front function that picks among its items", "why_tests_cant": "over all sequences of populations; the tests run one optimizer with elitism on one function", "anchors": ["pybrain/optimization/populationbased/multiobjective/nsga2.py:26-56", "pybrain/optimization/populationbased/multiobjective/constnsga2.py:27-61", "pybrain/optimization/optimizer.py:225-251"]}
