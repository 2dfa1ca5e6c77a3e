{"id": "C01", "title": "A normalised basis has unit volume, is non-negative and causal", "statement": "Every column of the impulse-response basis a model builds integrates to one (dt times the column sum is 1), every entry is a finite non-negative number, and unless instantaneous effects are allowed the row for lag zero is entirely zero.", "quantifier": "every number of basis functions, bin size, maximum lag, with or without instantaneous effects, cosine and identity bases", "why_tests_cant": "The columns are built by warping, interpolating and dividing by a sum that depends on real-valued dt and dt_max; a test samples a few settings and misses the ones where a column sum is zero.", "anchors": ["pyhawkes/utils/basis.py:Basis.interpolate_basis", "pyhawkes/utils/basis.py:CosineBasis.create_basis", "pyhawkes/utils/basis.py:IdentityBasis.create_basis"]}
{"id": "C02", "title": "Filtering is the causal convolution of the counts with the basis", "statement": "The filtered array returned for a count matrix S has entry F[t,k,b] = sum over lags l<=t of basis[l,b]*S[t-l,k]; it never depends on counts after bin t, and (without instantaneous effects) not on bin t either; it is linear in S and non-negative for non-negative data.", "quantifier": "every count matrix of any size and every basis of any length, including series shorter than the basis", "why_tests_cant": "It quantifies over all T, K, B, basis lengths and all futures of a series.", "anchors": ["pyhawkes/utils/basis.py:Basis.convolve_with_basis"]}
{"id": "C03", "title": "Filtered mass never exceeds the number of events, and equals it when the tail is empty", "statement": "For a normalised basis, dt times the sum over time of F[:,k,b] is at most the number of events of process k, with equality exactly when no basis mass falls beyond the end of the recording (in particular when the last basis-length bins hold no event).", "quantifier": "every count matrix, every normalised non-negative basis", "why_tests_cant": "The log likelihood replaces the integrated rate by W*N on the strength of this; boundary effects depend on where every event falls.", "anchors": ["pyhawkes/utils/basis.py:Basis.convolve_with_basis", "pyhawkes/internals/parents.py:DiscreteTimeParents.log_likelihood_single_process"]}
{"id": "C04", "title": "compute_rate returns the network Hawkes rate", "statement": "compute_rate returns lambda0[k'] + sum_{k,b} A[k,k']W[k,k']g[k,k',b]F[t,k,b] for every bin and process, and asking for a single process returns exactly that column of the full answer.", "quantifier": "every parameter setting, data set and process index", "why_tests_cant": "Axis mix-ups in the tensor contractions only show for particular K, B and asymmetric parameters.", "anchors": ["pyhawkes/models.py:_DiscreteTimeNetworkHawkesModelBase.compute_rate"]}
{"id": "C05", "title": "The rate of stored data equals the rate of the same data passed in", "statement": "compute_rate(index=i) on a data set added with add_data(S), compute_rate(S=S), and compute_rate(S=S, F=F) with F the filtered S all return the same array, and asking for an index that does not exist raises.", "quantifier": "every data set, index and parameter setting", "why_tests_cant": "Holds for every history of add_data calls.", "anchors": ["pyhawkes/models.py:_DiscreteTimeNetworkHawkesModelBase.compute_rate", "pyhawkes/models.py:_DiscreteTimeNetworkHawkesModelBase.add_data"]}
{"id": "C06", "title": "generate returns the rate of the data it returns", "statement": "The rate array returned by generate equals compute_rate evaluated on the generated counts, for every outcome of the Poisson draws; each draw is made with parameter dt times that rate.", "quantifier": "every parameter setting, horizon T and every outcome of the random draws", "why_tests_cant": "The simulator accumulates rates incrementally while compute_rate convolves; equality must hold for every random outcome.", "anchors": ["pyhawkes/models.py:_DiscreteTimeNetworkHawkesModelBase.generate"]}
{"id": "C07", "title": "Simulated rates are causal", "statement": "The rate used to draw bin t in generate depends only on counts in earlier bins: two runs whose draws agree before bin t request the same Poisson parameters for bin t.", "quantifier": "every pair of histories agreeing up to t, every basis", "why_tests_cant": "Quantifies over pairs of random histories.", "anchors": ["pyhawkes/models.py:_DiscreteTimeNetworkHawkesModelBase.generate", "pyhawkes/utils/basis.py:Basis.interpolate_basis"]}
{"id": "C08", "title": "generate keep flag", "statement": "generate(keep=True) appends exactly one data set holding the returned counts and changes nothing else; generate(keep=False) leaves the data list untouched; parameters never change.", "quantifier": "every model state and every outcome of the draws", "why_tests_cant": "About all states and all random outcomes.", "anchors": ["pyhawkes/models.py:_DiscreteTimeNetworkHawkesModelBase.generate", "pyhawkes/models.py:_DiscreteTimeNetworkHawkesModelBase.add_data"]}
{"id": "C09", "title": "Held-out log likelihood is the exact Poisson log likelihood and has no side effects", "statement": "heldout_log_likelihood(S) returns sum_{t,k} S[t,k] ln R[t,k] - dt R[t,k] for the rate R of S, and leaves the data list and parameters unchanged.", "quantifier": "every data set and parameter setting", "why_tests_cant": "All inputs; side-effect freedom is about every state.", "anchors": ["pyhawkes/models.py:_DiscreteTimeNetworkHawkesModelBase.heldout_log_likelihood", "pyhawkes/models.py:_DiscreteTimeNetworkHawkesModelBase._poisson_log_likelihood"]}
{"id": "C10", "title": "Training log likelihood bounds the exact one from below", "statement": "log_likelihood of a stored data set is at most the exact Poisson log likelihood of that data set, and equal to it when no impulse response is truncated by the end of the data.", "quantifier": "every data set and parameter setting with normalised basis and impulse responses", "why_tests_cant": "The approximation error depends on every event near the end of the recording.", "anchors": ["pyhawkes/internals/parents.py:DiscreteTimeParents.log_likelihood", "pyhawkes/models.py:_DiscreteTimeNetworkHawkesModelBase.log_likelihood"]}
{"id": "C11", "title": "Minibatching does not change the log likelihood", "statement": "Adding data split into minibatches of any size gives the same total log_likelihood as adding it whole, for the network model and for the standard model; the pieces tile the data exactly.", "quantifier": "every data set, minibatch size and parameter setting", "why_tests_cant": "Chunk boundaries for every T and minibatch size, including sizes that do not divide T.", "anchors": ["pyhawkes/models.py:_DiscreteTimeNetworkHawkesModelBase.add_data", "pyhawkes/models.py:DiscreteTimeStandardHawkesModel.add_data"]}
{"id": "C12", "title": "Log likelihood is additive over data sets and processes", "statement": "log_likelihood() is the sum of log_likelihood(i) over stored data sets, independent of their order, and each is the sum over processes of a term that depends only on the incoming weights of that process.", "quantifier": "every list of data sets", "why_tests_cant": "All histories of add_data.", "anchors": ["pyhawkes/models.py:_DiscreteTimeNetworkHawkesModelBase.log_likelihood", "pyhawkes/internals/parents.py:DiscreteTimeParents.log_likelihood_single_process"]}
{"id": "C13", "title": "Log likelihoods are finite whenever background rates are positive", "statement": "With positive background rates and non-negative weights, impulse responses and filtered data, the training and held-out log likelihoods are finite numbers.", "quantifier": "every data set and every such parameter setting", "why_tests_cant": "Floating NaN/inf arises only at particular zero patterns; must hold for all.", "anchors": ["pyhawkes/internals/parents.py:DiscreteTimeParents.log_likelihood_single_process", "pyhawkes/models.py:_DiscreteTimeNetworkHawkesModelBase._poisson_log_likelihood"]}
{"id": "C14", "title": "Every event gets exactly one parent", "statement": "After a Gibbs update of the parents the assignment counts are non-negative integers and for every bin and process sum to the observed count, for counts below 2^32 (the type the counts are stored in).", "quantifier": "every data set, parameter setting and outcome of the multinomial draws", "why_tests_cant": "All random outcomes and all counts, including counts beyond the 32-bit storage.", "anchors": ["pyhawkes/internals/parents.py:DiscreteTimeParents._resample_Z_python", "pyhawkes/internals/parents.py:DiscreteTimeParents._resample_Z_gsl", "pyhawkes/internals/parents.py:DiscreteTimeParents.__init__"]}
{"id": "C15", "title": "Sufficient statistics conserve events", "statement": "For every process, background-attributed events plus the events attributed to each parent process sum to its number of events; the impulse-response statistics sum over basis functions to the weight statistics; the second components are T*dt and the parents' event counts.", "quantifier": "every parent assignment consistent with the data", "why_tests_cant": "Reshape/axis errors only show for particular K,B; must hold for every assignment.", "anchors": ["pyhawkes/internals/parents.py:DiscreteTimeParents.compute_bkgd_ss", "pyhawkes/internals/parents.py:DiscreteTimeParents.compute_approx_weight_ss", "pyhawkes/internals/parents.py:DiscreteTimeParents.compute_ir_ss"]}
{"id": "C16", "title": "No event is attributed over an absent edge or an empty window", "statement": "In the spike-and-slab model a Gibbs update never attributes an event to a process without an edge to it, nor to a process/basis with zero filtered activity in that bin.", "quantifier": "every adjacency matrix, data set and outcome of the draws", "why_tests_cant": "All random outcomes.", "anchors": ["pyhawkes/internals/parents.py:DiscreteTimeParents._resample_Z_python", "pyhawkes/internals/weights.py:SpikeAndSlabGammaWeights.W_effective"]}
{"id": "C17", "title": "Expected parent counts conserve events; the Python and Cython updates agree", "statement": "After a mean-field parent update the expected counts are non-negative and sum to the observed count in each bin, and the compiled update computes the same array.", "quantifier": "every data set and variational parameter setting", "why_tests_cant": "Two implementations, all inputs and all thread schedules.", "anchors": ["pyhawkes/internals/parents.py:DiscreteTimeParents._mf_update_Z_python", "pyhawkes/internals/parent_updates.pyx:mf_update_Z"]}
{"id": "C18", "title": "The mean-field parent update is the optimal one", "statement": "Among all non-negative expected counts that sum to the observed counts, the updated ones maximise the data set's contribution to the variational lower bound with everything else fixed.", "quantifier": "every alternative expected-count array", "why_tests_cant": "Optimality over a continuum of alternatives.", "anchors": ["pyhawkes/internals/parents.py:DiscreteTimeParents._mf_update_Z_python", "pyhawkes/internals/parents.py:DiscreteTimeParents.get_vlb", "pyhawkes/internals/parent_updates.pyx:mf_vlb"]}
{"id": "C19", "title": "GSL and pure-Python parent resampling draw from the same distribution", "statement": "The parallel and the pure-Python parent updates request multinomials with identical counts and identical probability vectors for every bin and process, and these are the posterior: background rate and each weighted filtered response divided by the rate.", "quantifier": "every data set and parameter setting", "why_tests_cant": "Two code paths with different reshapes, all shapes.", "anchors": ["pyhawkes/internals/parents.py:DiscreteTimeParents._resample_Z_gsl", "pyhawkes/internals/parents.py:DiscreteTimeParents._resample_Z_python"]}
{"id": "C20", "title": "Background-rate update is the conjugate posterior", "statement": "The Gibbs update of the background rates draws each lambda0[k] from the gamma distribution whose density is proportional to the prior times the likelihood of the background-attributed events, pooled over all data sets; with no data it draws from the prior.", "quantifier": "every list of data sets and parent assignments, every value of the rate", "why_tests_cant": "An identity between densities at every point, for every data list.", "anchors": ["pyhawkes/internals/bias.py:GammaBias.resample", "pyhawkes/internals/parents.py:DiscreteTimeParents.compute_bkgd_ss"]}
{"id": "C21", "title": "Weight update is the conjugate posterior", "statement": "The spike-and-slab update of W draws each weight from the gamma density proportional to prior times likelihood of the attributed events given A (present edges see N[k] exposures; absent edges are drawn from the prior).", "quantifier": "every list of data sets, assignments, adjacency matrix and weight value", "why_tests_cant": "Identity between densities at all points.", "anchors": ["pyhawkes/internals/weights.py:SpikeAndSlabGammaWeights.resample_W_given_A_and_z"]}
{"id": "C22", "title": "Impulse-response update is the conjugate posterior", "statement": "The impulse-response update draws each g[k,k',:] from the Dirichlet whose density is proportional to prior times multinomial likelihood of the attributed events, and the result is a strictly positive vector summing to one.", "quantifier": "every list of data sets and assignments", "why_tests_cant": "Identity between densities at all points.", "anchors": ["pyhawkes/internals/impulses.py:DirichletImpulseResponses.resample"]}
{"id": "C23", "title": "Continuous-time background update pools all data sets", "statement": "The continuous-time update of background rates uses the background events and durations of every data set.", "quantifier": "every list of data sets", "why_tests_cant": "Wrong only with two or more data sets.", "anchors": ["pyhawkes/internals/bias.py:ContinuousTimeGammaBias._get_suff_statistics"]}
{"id": "C24", "title": "Mixture-model edge update uses the correct marginal likelihood", "statement": "The gamma-mixture model's update of A draws each edge with probability proportional to prior times the marginal likelihood of the attributed counts with W integrated out: for every w, joint density = marginal x the gamma density that the subsequent W update draws from.", "quantifier": "every sufficient statistic, hyperparameter and weight value w>0", "why_tests_cant": "Identity at all points.", "anchors": ["pyhawkes/internals/weights.py:GammaMixtureWeights._resample_A", "pyhawkes/internals/weights.py:GammaMixtureWeights._resample_W_given_A"]}
{"id": "C25", "title": "Edges are drawn with their posterior probability", "statement": "The rule log(u) < lp1 - logsumexp(lp0, lp1) adds an edge exactly when u < exp(lp1)/(exp(lp0)+exp(lp1)), including the cases where one of the log probabilities is minus infinity.", "quantifier": "every uniform draw u and every pair of log probabilities", "why_tests_cant": "All reals and infinite cases.", "anchors": ["pyhawkes/internals/weights.py:SpikeAndSlabGammaWeights._resample_A_given_W", "pyhawkes/internals/weights.py:GammaMixtureWeights._resample_A", "pyhawkes/internals/parallel_adjacency_resampling.py:_resample_column_of_A"]}
{"id": "C26", "title": "Serial and parallel adjacency updates agree", "statement": "Given the same uniform draws per edge, the parallel column-wise adjacency update returns the same matrix as the serial one, whatever order the columns are processed in; with no data both draw edges from the prior.", "quantifier": "every data list, parameter setting and schedule of the parallel workers", "why_tests_cant": "All schedules and inputs.", "anchors": ["pyhawkes/internals/weights.py:SpikeAndSlabGammaWeights._joblib_resample_A_given_W", "pyhawkes/internals/weights.py:SpikeAndSlabGammaWeights._resample_A_given_W", "pyhawkes/internals/parallel_adjacency_resampling.py:_resample_column_of_A"]}
{"id": "C27", "title": "Forbidden self-connections never appear", "statement": "With allow_self_connections=False no Gibbs history ever produces an edge from a process to itself, and no event is ever attributed to its own process.", "quantifier": "every Gibbs history, every outcome of the draws", "why_tests_cant": "All random histories.", "anchors": ["pyhawkes/internals/weights.py:SpikeAndSlabGammaWeights.resample", "pyhawkes/internals/weights.py:GammaMixtureWeights.resample", "pyhawkes/internals/network.py:ErdosRenyiFixedSparsity.P", "pyhawkes/internals/network.py:_StochasticBlockModelBase.P"]}
{"id": "C28", "title": "Edge probabilities 0 and 1 are deterministic", "statement": "A pair with prior connection probability 0 never gets an edge and one with probability 1 always does, in every adjacency update.", "quantifier": "every data set, parameter setting and uniform draw", "why_tests_cant": "All outcomes including u=0.", "anchors": ["pyhawkes/internals/weights.py:SpikeAndSlabGammaWeights", "pyhawkes/internals/parallel_adjacency_resampling.py", "pyhawkes/internals/weights.py:SpikeAndSlabContinuousTimeGammaWeights._resample_A_given_W"]}
{"id": "C29", "title": "P and V are the block tables indexed by labels", "statement": "P[k,k'] and V[k,k'] are p and v at the blocks of k and k', except that P has a zero diagonal when self-connections are disallowed; reading them changes nothing.", "quantifier": "every label vector and block table", "why_tests_cant": "All labels and shapes.", "anchors": ["pyhawkes/internals/network.py:_StochasticBlockModelBase.P", "pyhawkes/internals/network.py:_StochasticBlockModelBase.V", "pyhawkes/internals/network.py:ErdosRenyiFixedSparsity.P"]}
{"id": "C30", "title": "Block connection probabilities and scales are drawn from their posterior", "statement": "The SBM update of p and v draws from the conjugate posterior given the observed edges and weights between blocks, counting only pairs that can have an edge.", "quantifier": "every adjacency matrix, weights and labels", "why_tests_cant": "All matrices; self-pair bias visible only with disallowed self-connections.", "anchors": ["pyhawkes/internals/network.py:GibbsSBM.resample_p", "pyhawkes/internals/network.py:GibbsSBM.resample_v"]}
{"id": "C31", "title": "Block labels are drawn from their posterior and stay in range", "statement": "The SBM label update draws each label with log probability (up to a constant) equal to the log of prior times likelihood of all edges and weights touching that node, each counted once; labels stay in 0..C-1.", "quantifier": "every adjacency matrix, weights, labels and draws", "why_tests_cant": "All inputs; the self pair is counted twice.", "anchors": ["pyhawkes/internals/network.py:GibbsSBM.resample_c"]}
{"id": "C32", "title": "User-specified network parameters are kept", "statement": "A network constructed with explicit labels, probabilities and scales uses them, and one constructed with all of them given never changes.", "quantifier": "every constructor argument combination and Gibbs history", "why_tests_cant": "All argument combinations.", "anchors": ["pyhawkes/internals/network.py:_StochasticBlockModelBase.__init__", "pyhawkes/internals/network.py:GibbsSBM.__init__"]}
{"id": "C33", "title": "Fixed-sparsity networks keep their sparsity under every update", "statement": "A fixed-sparsity SBM never changes its connection probabilities in Gibbs or mean-field updates and refuses to update them, and its variational bound is a number.", "quantifier": "every history of updates", "why_tests_cant": "All histories and flag combinations.", "anchors": ["pyhawkes/internals/network.py:StochasticBlockModelFixedSparsity", "pyhawkes/internals/network.py:MeanFieldSBM.meanfieldupdate"]}
{"id": "C34", "title": "SBM variational parameters stay valid", "statement": "Through any sequence of mean-field or SGD updates with step sizes in [0,1], block-membership rows stay probability vectors and all gamma/beta/Dirichlet parameters stay positive.", "quantifier": "every history of updates, every step size sequence", "why_tests_cant": "All histories.", "anchors": ["pyhawkes/internals/network.py:MeanFieldSBM.mf_update_c", "pyhawkes/internals/network.py:MeanFieldSBM.mf_update_p", "pyhawkes/internals/network.py:MeanFieldSBM.mf_update_v", "pyhawkes/internals/network.py:MeanFieldSBM.mf_update_m"]}
{"id": "C35", "title": "Erdos-Renyi scale settings", "statement": "The Erdos-Renyi network chooses its weight scale from (v, alpha, beta) as documented, resamples the scale from its conjugate posterior exactly when alpha and beta are given and leaves a fixed scale alone, and supports mean-field updates and log probability.", "quantifier": "every combination of arguments", "why_tests_cant": "All argument combinations and histories.", "anchors": ["pyhawkes/internals/network.py:ErdosRenyiFixedSparsity"]}
{"id": "C36", "title": "A full-batch unit-step SVI update equals the batch update", "statement": "The stochastic variational update with minibatch fraction 1 and step size 1 sets every variational parameter of bias, impulse, weight and network models to the batch coordinate-descent value.", "quantifier": "every state and data list", "why_tests_cant": "All states.", "anchors": ["pyhawkes/internals/bias.py:GammaBias.meanfield_sgdstep", "pyhawkes/internals/impulses.py:DirichletImpulseResponses.meanfield_sgdstep", "pyhawkes/internals/weights.py:GammaMixtureWeights.meanfield_sgdstep", "pyhawkes/internals/network.py:ErdosRenyiFixedSparsity.meanfield_sgdstep"]}
{"id": "C37", "title": "SVI minibatches sweep the data", "statement": "Consecutive sgd_step calls with a fixed minibatch size visit consecutive slices that tile the whole data set once per epoch and then wrap around; every slice is non-empty and the reported fraction is its share of the bins.", "quantifier": "every data length, minibatch size and number of steps", "why_tests_cant": "Unbounded histories.", "anchors": ["pyhawkes/models.py:DiscreteTimeNetworkHawkesModelGammaMixture.sgd_step"]}
{"id": "C38", "title": "Variational parameters stay positive", "statement": "Through any sequence of mean-field or SVI updates with step sizes in [0,1] every gamma and Dirichlet parameter of the bias, weight and impulse models stays positive and every edge probability stays in [1e-8, 1-1e-8].", "quantifier": "every history of updates", "why_tests_cant": "All histories.", "anchors": ["pyhawkes/internals/bias.py:GammaBias.mf_update_lambda0", "pyhawkes/internals/impulses.py:DirichletImpulseResponses.mf_update_gamma", "pyhawkes/internals/weights.py:GammaMixtureWeights.meanfieldupdate_p", "pyhawkes/internals/weights.py:GammaMixtureWeights.meanfieldupdate_kappa_v"]}
{"id": "C39", "title": "Expected weights", "statement": "expected_W is the mixture of the two conditional means weighted by the edge probability, lies between them, and is zero on the diagonal when self-connections are disallowed.", "quantifier": "every variational state", "why_tests_cant": "All states.", "anchors": ["pyhawkes/internals/weights.py:GammaMixtureWeights.expected_W", "pyhawkes/internals/weights.py:GammaMixtureWeights.expected_W_given_A"]}
{"id": "C40", "title": "copy_sample returns an independent snapshot", "statement": "The model returned by copy_sample has the current parameters and no data, and no later Gibbs update of the original changes it; the original keeps its data.", "quantifier": "every history of updates after the copy", "why_tests_cant": "Aliasing bugs show only for particular later histories.", "anchors": ["pyhawkes/models.py:_DiscreteTimeNetworkHawkesModelBase.copy_sample"]}
{"id": "C41", "title": "get_parameters returns a copy", "statement": "The arrays returned by get_parameters are a snapshot: later updates of the model do not change them.", "quantifier": "every history of updates", "why_tests_cant": "Aliasing.", "anchors": ["pyhawkes/models.py:_DiscreteTimeNetworkHawkesModelBase.get_parameters", "pyhawkes/internals/impulses.py:DirichletImpulseResponses.resample", "pyhawkes/internals/weights.py:SpikeAndSlabGammaWeights._resample_A_given_W"]}
{"id": "C42", "title": "set_parameters restores what get_parameters returned", "statement": "set_parameters(get_parameters()) succeeds and leaves the model unchanged.", "quantifier": "every model state", "why_tests_cant": "All states.", "anchors": ["pyhawkes/models.py:_DiscreteTimeNetworkHawkesModelBase.set_parameters", "pyhawkes/models.py:_DiscreteTimeNetworkHawkesModelBase.get_parameters"]}
{"id": "C43", "title": "Held-out evaluation restores the data list", "statement": "heldout_log_likelihood of the standard, nonlinear and continuous-time models returns the likelihood of exactly the held-out data and leaves the stored data as before.", "quantifier": "every stored data list and held-out data", "why_tests_cant": "All histories.", "anchors": ["pyhawkes/models.py:DiscreteTimeStandardHawkesModel.heldout_log_likelihood", "pyhawkes/standard_models.py:_NonlinearHawkesProcessBase.heldout_log_likelihood", "pyhawkes/models.py:ContinuousTimeNetworkHawkesModel.heldout_log_likelihood"]}
{"id": "C44", "title": "Gibbs histories stay in the parameter domain (discrete time)", "statement": "After any number of resample_model sweeps: background rates and weights are positive, adjacency entries are 0/1, impulse responses are probability vectors, parents sum to counts.", "quantifier": "every history and every outcome of the draws", "why_tests_cant": "All histories.", "anchors": ["pyhawkes/models.py:DiscreteTimeNetworkHawkesModelSpikeAndSlab.resample_model", "pyhawkes/models.py:DiscreteTimeNetworkHawkesModelGammaMixture.resample_model"]}
{"id": "C45", "title": "Gibbs histories stay in the parameter domain (continuous time)", "statement": "After any number of resample_model sweeps of the continuous-time model: rates, weights and precisions are positive, A is 0/1, every event's parent is the background or an earlier event, and statistics balance.", "quantifier": "every history and outcome of the draws", "why_tests_cant": "All histories.", "anchors": ["pyhawkes/models.py:ContinuousTimeNetworkHawkesModel.resample_model"]}
{"id": "C46", "title": "add_data validates atomically", "statement": "add_data either raises and leaves the data list unchanged, or appends data whose shape, sign and type are valid.", "quantifier": "every input", "why_tests_cant": "All inputs.", "anchors": ["pyhawkes/models.py:_DiscreteTimeNetworkHawkesModelBase.add_data", "pyhawkes/models.py:ContinuousTimeNetworkHawkesModel.add_data", "pyhawkes/models.py:DiscreteTimeStandardHawkesModel.add_data"]}
{"id": "C47", "title": "compute_gradient is the gradient of log_posterior", "statement": "compute_gradient(k) returns the partial derivatives of log_posterior with respect to process k's weights (with the self block zeroed when self-connections are disallowed).", "quantifier": "every weight vector with positive rates, every data list", "why_tests_cant": "A derivative identity at all points.", "anchors": ["pyhawkes/models.py:DiscreteTimeStandardHawkesModel.compute_gradient", "pyhawkes/models.py:DiscreteTimeStandardHawkesModel.log_posterior"]}
{"id": "C48", "title": "Standard-model weight layout and rate", "statement": "The standard model's rate is the Hawkes rate with bias, W and G read off its weights: bias[k'] + sum_{k,b} W[k,k'] G[k,k',b] F[t,k,b].", "quantifier": "every weight matrix with non-zero block sums", "why_tests_cant": "All shapes.", "anchors": ["pyhawkes/models.py:DiscreteTimeStandardHawkesModel.W", "pyhawkes/models.py:DiscreteTimeStandardHawkesModel.compute_rate", "pyhawkes/models.py:DiscreteTimeStandardHawkesModel.G"]}
{"id": "C49", "title": "Reading properties has no side effects", "statement": "Reading W, bias or G of a standard model does not change the model.", "quantifier": "every model state and sequence of reads", "why_tests_cant": "Side effects through NumPy views depend on memory layout.", "anchors": ["pyhawkes/models.py:DiscreteTimeStandardHawkesModel.G", "pyhawkes/models.py:DiscreteTimeStandardHawkesModel.W"]}
{"id": "C50", "title": "Initialising the standard model from a Gibbs sample reproduces its rates", "statement": "initialize_with_gibbs_model makes the standard model's rate equal to the network model's rate on the same data.", "quantifier": "every pair of compatible models", "why_tests_cant": "All K.", "anchors": ["pyhawkes/models.py:DiscreteTimeStandardHawkesModel.initialize_with_gibbs_model"]}
{"id": "C51", "title": "Gradient steps keep weights positive", "statement": "Gradient-descent and SGD steps keep all weights strictly positive, leave the self block at 1e-32 when self-connections are disallowed, and leave other processes' rows to their own update.", "quantifier": "every history of steps", "why_tests_cant": "All histories.", "anchors": ["pyhawkes/models.py:DiscreteTimeStandardHawkesModel.gradient_descent_step", "pyhawkes/models.py:DiscreteTimeStandardHawkesModel.sgd_step"]}
{"id": "C52", "title": "Initialising the network model from the standard model gives valid parameters", "statement": "initialize_with_standard_model sets strictly positive weights, impulse responses that are probability vectors bounded away from zero, and the standard model's biases, without aliasing or changing the standard model.", "quantifier": "every fitted standard model", "why_tests_cant": "All weights.", "anchors": ["pyhawkes/models.py:_DiscreteTimeNetworkHawkesModelBase.initialize_with_standard_model"]}
{"id": "C53", "title": "Background-rate initialisation is the homogeneous maximum-likelihood rate", "statement": "initialize_to_background_rate sets each bias so that the process's baseline rate (the link of the bias) is total events over total time, which maximises the homogeneous Poisson log likelihood.", "quantifier": "every data list and alternative rate", "why_tests_cant": "Optimality over a continuum.", "anchors": ["pyhawkes/models.py:DiscreteTimeStandardHawkesModel.initialize_to_background_rate", "pyhawkes/standard_models.py:_NonlinearHawkesNodeBase.initialize_to_background_rate"]}
{"id": "C54", "title": "Standard-model stability check and prior are callable", "statement": "check_stability returns whether the spectral radius is below one and log_prior() returns the prior of all processes.", "quantifier": "every model", "why_tests_cant": "All states.", "anchors": ["pyhawkes/models.py:DiscreteTimeStandardHawkesModel.check_stability", "pyhawkes/models.py:DiscreteTimeStandardHawkesModel.log_prior"]}
{"id": "C55", "title": "The standard model's log posterior is concave", "statement": "For alpha >= 1 and beta >= 0 log_posterior is a concave function of each process's positive weights, so local optima are global.", "quantifier": "every pair of weight vectors and mixing coefficient", "why_tests_cant": "Inequality over a continuum.", "anchors": ["pyhawkes/models.py:DiscreteTimeStandardHawkesModel.log_posterior"]}
{"id": "C56", "title": "Nonlinear model links and data", "statement": "For each node type the inverse link inverts the link, and add_data accepts filtered data with or without the bias column.", "quantifier": "every rate value and data set", "why_tests_cant": "All reals; all shapes.", "anchors": ["pyhawkes/standard_models.py:_NonlinearHawkesNodeBase.add_data", "pyhawkes/standard_models.py:RectLinearHawkesNode", "pyhawkes/standard_models.py:ExpNonlinearHawkesNode"]}
{"id": "C57", "title": "Nonlinear model objective, W, G and bias", "statement": "objective(w) is the negative log likelihood per event plus the penalties; W, G and bias reads are pure and consistent with the rate; G rows are probability-like (sum to one) also for zero weights.", "quantifier": "every weight vector and data list", "why_tests_cant": "All inputs.", "anchors": ["pyhawkes/standard_models.py:_NonlinearHawkesNodeBase.objective", "pyhawkes/standard_models.py:_NonlinearHawkesProcessBase.G", "pyhawkes/standard_models.py:_NonlinearHawkesProcessBase.W"]}
{"id": "C58", "title": "Continuous-time rate at events is the Hawkes intensity", "statement": "For time-sorted events the rate at each event is lambda0 plus the sum of weighted impulse responses over all earlier events whose delay lies in the response window (the compiled code trims 1e-8 of dt_max at each end and uses a fixed float constant for 1/sqrt(2 pi)), although the backward scan stops at the first event out of the window.", "quantifier": "every sorted event sequence and parameter setting", "why_tests_cant": "All event sequences; early termination is only right when sorted.", "anchors": ["pyhawkes/internals/continuous_time_helpers.pyx:compute_rate_at_events", "pyhawkes/models.py:ContinuousTimeNetworkHawkesModel.compute_rate_at_events"]}
{"id": "C59", "title": "Continuous-time parent sampling is exact", "statement": "Each event's parent is drawn from the categorical distribution proportional to background rate and weighted impulse responses by inverse CDF: it is the background or an earlier event within the window, every uniform draw yields a parent, and the set of uniforms selecting each candidate is an interval of exactly its probability; threads may process events in any order.", "quantifier": "every sorted event sequence, uniform draw and thread schedule", "why_tests_cant": "All reals u and schedules.", "anchors": ["pyhawkes/internals/continuous_time_helpers.pyx:ct_resample_Z_logistic_normal", "pyhawkes/internals/parents.py:ContinuousTimeParents.resample"]}
{"id": "C60", "title": "Continuous-time sufficient statistics", "statement": "The statistics after a parent update are the counts, sums and centred sums of squares of the transformed delays for each ordered pair, and background plus attributed events equal the event counts.", "quantifier": "every event sequence and parent assignment", "why_tests_cant": "All inputs.", "anchors": ["pyhawkes/internals/continuous_time_helpers.pyx:ct_compute_suff_stats"]}
{"id": "C61", "title": "The impulse response is a probability density on (0, dt_max)", "statement": "The continuous-time impulse response is the density of dt_max*logistic(x) for Normal x, i.e. the normal density at the logit times the derivative of the logit, it integrates to one over (0, dt_max), and the compiled version equals it up to one multiplicative constant (the float used for 1/sqrt(2 pi)) outside a 1e-8 trim at the two ends.", "quantifier": "every delay and parameter setting", "why_tests_cant": "Identity at all points.", "anchors": ["pyhawkes/internals/impulses.py:ContinuousTimeImpulseResponses.impulse", "pyhawkes/internals/continuous_time_helpers.pyx:ln_impulse"]}
{"id": "C62", "title": "Continuous-time log likelihood", "statement": "log_likelihood is the sum over data sets of the log rate at events minus lambda0*T + W'N, additive over data sets and unaffected by data not passed.", "quantifier": "every data list", "why_tests_cant": "All inputs.", "anchors": ["pyhawkes/models.py:ContinuousTimeNetworkHawkesModel.log_likelihood", "pyhawkes/models.py:ContinuousTimeNetworkHawkesModel.compute_integrated_rate"]}
{"id": "C63", "title": "Continuous-time compute_rate is the Hawkes intensity", "statement": "compute_rate(S, C, T, dt) returns lambda0[k] plus the weighted impulse responses of all events within the window at each grid point.", "quantifier": "every event sequence", "why_tests_cant": "Duplicate-index updates drop contributions only when two events fall in one window.", "anchors": ["pyhawkes/models.py:ContinuousTimeNetworkHawkesModel.compute_rate"]}
{"id": "C64", "title": "Continuous-time simulation output is valid data", "statement": "generate returns sorted event times in [0,T) with process ids in range that add_data accepts, every non-background event lies within dt_max after its parent and follows an existing edge, or it fails on the recursion bound without adding data.", "quantifier": "every outcome of the draws", "why_tests_cant": "All random outcomes and recursion depths.", "anchors": ["pyhawkes/models.py:ContinuousTimeNetworkHawkesModel.generate"]}
{"id": "C65", "title": "Impulse-parameter update is the normal-inverse-gamma posterior", "statement": "The continuous-time impulse update draws (mu, tau) from the normal-gamma posterior given all transformed delays, pooled over data sets.", "quantifier": "every data list and value of mu, tau", "why_tests_cant": "Identity at all points; pooling error shows only with two or more data sets.", "anchors": ["pyhawkes/internals/impulses.py:ContinuousTimeImpulseResponses.resample", "pyhawkes/utils/utils.py:sample_nig"]}
{"id": "C66", "title": "Discrete/continuous conversion round trip", "statement": "Converting counts to event times gives sorted times inside the recording, and converting back with the same bin width returns the original counts; binning counts every event exactly once or raises.", "quantifier": "every count matrix, bin width and jitter", "why_tests_cant": "All matrices and random jitter.", "anchors": ["pyhawkes/utils/utils.py:convert_discrete_to_continuous", "pyhawkes/utils/utils.py:convert_continuous_to_discrete"]}
{"id": "C67", "title": "Unique file names are unique", "statement": "get_unique_file_name returns a name that does not exist in the directory.", "quantifier": "every directory listing and name; every history of creations", "why_tests_cant": "Depends on the set of files present.", "anchors": ["pyhawkes/utils/utils.py:get_unique_file_name"]}
{"id": "C68", "title": "logit and logistic are inverse", "statement": "logit(logistic(x)) = x for all x and logistic(logit(y)) = y for y in (0, lam_max); logistic is increasing with range (0, lam_max).", "quantifier": "every real and lam_max", "why_tests_cant": "All reals.", "anchors": ["pyhawkes/utils/utils.py:logistic", "pyhawkes/utils/utils.py:logit"]}
{"id": "C69", "title": "Inhomogeneous Poisson sampling inverts the cumulative rate", "statement": "sampleInhomogeneousPoissonProc returns sorted times within the grid at which the trapezoidal cumulative rate (linearly interpolated) equals the sorted uniform draws, and never raises for positive draws.", "quantifier": "every grid, non-negative rate and draws", "why_tests_cant": "All inputs and draws.", "anchors": ["pyhawkes/utils/poisson_process.py:sampleInhomogeneousPoissonProc"]}
{"id": "C70", "title": "Cross-correlation blocks tile the matrix", "statement": "xcorr fills every pair and lag with the Pearson correlation of series i with series j shifted by the lag, regardless of the chunking and including NaN where it is undefined, with the zero-lag diagonal zero for every non-constant series; the moving average equals the windowed mean; the score sums absolute correlations over lags.", "quantifier": "every matrix size and lag", "why_tests_cant": "Chunk boundaries for all N.", "anchors": ["baselines/xcorr.py:xcorr", "baselines/xcorr.py:_moving_average"]}
{"id": "C71", "title": "Distribution objects compute the densities they name", "statement": "log_probability of Discrete, Bernoulli, Gamma, Dirichlet and Beta is the log density, constructors reject invalid parameters, negative entropies equal the expected log density.", "quantifier": "every parameter and value", "why_tests_cant": "All reals and shapes.", "anchors": ["pyhawkes/internals/distributions.py", "pyhawkes/internals/impulses.py:DirichletImpulseResponses.log_likelihood"]}
{"id": "C72", "title": "Parallel parent sampling follows OMP_NUM_THREADS", "statement": "When gslrandom is available and OMP_NUM_THREADS is set to a positive number, parents are resampled by the parallel sampler with that many generators.", "quantifier": "every environment", "why_tests_cant": "Configuration space.", "anchors": ["pyhawkes/internals/parents.py:DiscreteTimeParents.__init__", "pyhawkes/utils/utils.py:initialize_pyrngs"]}
{"id": "C73", "title": "Mean-field update flags are honoured", "statement": "A network mean-field update called with update_p, update_v, update_m or update_c set to False leaves the corresponding variational parameters unchanged, in batch and stochastic updates alike.", "quantifier": "every network state, weight statistics and flag combination", "why_tests_cant": "All flag combinations and states.", "anchors": ["pyhawkes/internals/network.py:MeanFieldSBM.meanfieldupdate", "pyhawkes/internals/network.py:MeanFieldSBM.meanfield_sgdstep"]}
{"id": "C74", "title": "The nodes of a nonlinear process stay in lockstep", "statement": "After any sequence of add_data, remove_data, heldout_log_likelihood, initialize_to_background_rate and fit_with_bfgs calls - including ones that raise - node k holds column k of one common list of data sets, to which accepted data is appended and from which remove_data deletes exactly the addressed entry.", "quantifier": "every history of calls, accepted or raising", "why_tests_cant": "All call histories, including exceptions in the middle of the per-node loop.", "anchors": ["pyhawkes/standard_models.py:_NonlinearHawkesProcessBase.add_data", "pyhawkes/standard_models.py:_NonlinearHawkesProcessBase.remove_data", "pyhawkes/standard_models.py:_NonlinearHawkesProcessBase.heldout_log_likelihood"]}
{"id": "C75", "title": "The nonlinear fitting objective is convex", "statement": "objective(w) is a convex function of the weights wherever the rates are positive, so that the local optimum fit_with_bfgs finds is global.", "quantifier": "every data list, pair of weight vectors and mixing coefficient", "why_tests_cant": "Inequality over a continuum.", "anchors": ["pyhawkes/standard_models.py:_NonlinearHawkesNodeBase.objective", "pyhawkes/standard_models.py:_NonlinearHawkesNodeBase.fit_with_bfgs"]}
{"id": "C76", "title": "Continuous-time edges come from their posterior, in serial and in parallel", "statement": "In the continuous-time model each resampled edge is accepted with the posterior probability proportional to prior times marginal likelihood of all events with that edge present or absent, the serial and column-parallel code paths give the same edges for the same uniforms under every worker schedule, and without data the edge follows its prior.", "quantifier": "every data list, parameter setting, uniform draws and completion order of workers", "why_tests_cant": "Identity at all real parameters and all schedules.", "anchors": ["pyhawkes/internals/parallel_adjacency_resampling.py", "pyhawkes/internals/weights.py:SpikeAndSlabContinuousTimeGammaWeights.resample"]}
{"id": "C77", "title": "Continuous-time weights are drawn from their gamma posterior", "statement": "The continuous-time weight update draws each weight of a present edge from Gamma(kappa + number of attributed events, v + number of events of the parent process), pooled over all data sets, and an edge that is absent has no attributed event.", "quantifier": "every data list and parent assignment", "why_tests_cant": "Identity over all inputs.", "anchors": ["pyhawkes/internals/weights.py:SpikeAndSlabContinuousTimeGammaWeights.resample"]}
{"id": "C78", "title": "Continuous-time add_data accepts exactly acceptable recordings", "statement": "add_data(S, C, T) stores the recording iff S is a one-dimensional float array of sorted times in [0, T), C an integer array of the same length with process ids in range and T a float; otherwise it raises and the model is unchanged.", "quantifier": "every argument value", "why_tests_cant": "All inputs, incl. boundary times, ties and empty arrays.", "anchors": ["pyhawkes/models.py:ContinuousTimeNetworkHawkesModel.add_data", "pyhawkes/internals/parents.py:ContinuousTimeParents.__init__"]}
{"id": "C79", "title": "The impulse response grid exposes the density", "statement": "The arrays returned as impulse responses on a grid equal the impulse density at each grid point.", "quantifier": "every parameter setting and grid", "why_tests_cant": "The end points evaluate log(0).", "anchors": ["pyhawkes/internals/impulses.py:ContinuousTimeImpulseResponses.impulses"]}
{"id": "C80", "title": "The smoothed firing rate is a weighted average of the binned rate", "statement": "approximateFiringRate returns one value per bin, each a fixed symmetric weighted average (weights positive, summing to one) of binned rates and edge means, so it is non-negative, stays between the extremes of the binned rate, and preserves constants; the binned rate is the number of events in the bin divided by its width.", "quantifier": "every event list, interval and number of bins", "why_tests_cant": "All inputs incl. fewer bins than the kernel width.", "anchors": ["pyhawkes/utils/poisson_process.py:approximateFiringRate"]}
{"id": "C81", "title": "A Gibbs sweep conditions every draw on the current values", "statement": "In resample_model of the spike-and-slab and of the gamma-mixture network model, and in the stochastic block model's resample, each block of parameters is drawn given the values the earlier blocks of the same sweep have just produced (and the parents drawn in that sweep), never given the values from before the sweep; the blocks not yet visited keep their old values.", "quantifier": "every model state, every list of data sets, every outcome of every random draw", "why_tests_cant": "A stale argument still yields valid-looking samples; only the dependency of every draw on every state component, for all states, distinguishes the right chain from a wrong one.", "anchors": ["pyhawkes/models.py:DiscreteTimeNetworkHawkesModelSpikeAndSlab.resample_model", "pyhawkes/models.py:DiscreteTimeNetworkHawkesModelGammaMixture.resample_model", "pyhawkes/internals/network.py:GibbsSBM.resample"]}
{"id": "C82", "title": "A continuous-time Gibbs sweep conditions every draw on the current values", "statement": "In resample_model of the continuous-time network model, parents are redrawn with the parameters in force before the sweep; the background rates and the impulse parameters are then drawn given the new parents, the network given the old adjacency and weights, the weights given the new parents and the new network, and finally the edges one after the other given the new rates, impulses and weights, each with a prior probability read from the new network.", "quantifier": "every model state reachable through the API, every list of data sets, every outcome of every random draw", "why_tests_cant": "A stale argument still yields valid-looking samples; only the dependency of every draw on every state component, for all states, distinguishes the right chain from a wrong one.", "anchors": ["pyhawkes/models.py:ContinuousTimeNetworkHawkesModel.resample_model", "pyhawkes/internals/bias.py:ContinuousTimeGammaBias.resample", "pyhawkes/internals/impulses.py:ContinuousTimeImpulseResponses.resample", "pyhawkes/internals/weights.py:SpikeAndSlabContinuousTimeGammaWeights.resample", "pyhawkes/internals/parents.py:ContinuousTimeParents.resample"]}
{"id": "C83", "title": "A coordinate-ascent step never lowers the reported bound", "statement": "meanfield_coordinate_descent_step returns the variational lower bound after updating the expected parents, background rates, impulse responses, weights and network; that value is at least the value get_vlb reports before the step, and so it is monotone along any number of steps.", "quantifier": "every valid mean-field state, every list of data sets, every number of steps", "why_tests_cant": "Monotone ascent is a statement about every state and every iteration; a test sees a few seeds and a tolerance.", "anchors": ["pyhawkes/models.py:DiscreteTimeNetworkHawkesModelGammaMixture.meanfield_coordinate_descent_step", "pyhawkes/models.py:DiscreteTimeNetworkHawkesModelGammaMixture.get_vlb", "pyhawkes/internals/parents.py:DiscreteTimeParents.meanfieldupdate", "pyhawkes/internals/parent_updates.pyx:mf_vlb"]}
{"id": "C84", "title": "Each variational update maximises the reported bound over its own parameters", "statement": "The mean-field update of the background rates, of the impulse responses, of the edge probabilities and weights, and of each network parameter yields, with everything else held fixed, the largest value of get_vlb over all valid values of that block.", "quantifier": "every valid state and every alternative value of the block", "why_tests_cant": "Optimality compares with infinitely many alternatives.", "anchors": ["pyhawkes/internals/bias.py:GammaBias.meanfieldupdate", "pyhawkes/internals/impulses.py:DirichletImpulseResponses.meanfieldupdate", "pyhawkes/internals/weights.py:GammaMixtureWeights.meanfieldupdate", "pyhawkes/internals/network.py:MeanFieldSBM.meanfieldupdate"]}
{"id": "C85", "title": "The variational lower bound is a finite number", "statement": "get_vlb of a model in a valid state returns a finite number: no exception, no NaN, no infinity.", "quantifier": "every valid mean-field state and network model", "why_tests_cant": "Finite on the tested configuration says nothing about the other network models and options.", "anchors": ["pyhawkes/models.py:DiscreteTimeNetworkHawkesModelGammaMixture.get_vlb", "pyhawkes/internals/weights.py:GammaMixtureWeights.get_vlb", "pyhawkes/internals/network.py:get_vlb", "pyhawkes/internals/parent_updates.pyx:mf_vlb"]}
{"id": "C86", "title": "The parameters' shares of the bound are minus Kullback-Leibler divergences", "statement": "The contribution of the background rates, of the impulse responses and of an Erdos-Renyi network's scale to get_vlb is the sum over the parameters of minus the divergence from prior to variational posterior, hence never positive and zero only at the prior.", "quantifier": "every prior and every variational parameter", "why_tests_cant": "An identity between two closed forms for all parameter values.", "anchors": ["pyhawkes/internals/bias.py:GammaBias.get_vlb", "pyhawkes/internals/impulses.py:DirichletImpulseResponses.get_vlb", "pyhawkes/internals/network.py:ErdosRenyiFixedSparsity.get_vlb"]}
{"id": "C87", "title": "Reported log priors are log densities", "statement": "bias_model.log_probability(), weight_model.log_probability() and impulse_model.log_probability() return the log density of the current background rates under independent Gamma priors, of the adjacency and weights under the Bernoulli / Gamma network prior, and of the impulse responses under independent Dirichlet priors.", "quantifier": "every number of processes and basis functions, every hyperparameter setting, every current parameter value, with and without self-connections", "why_tests_cant": "A test compares the value at a few parameter settings; the identity must hold for every real-valued parameter vector, and the deviations appear only at special values (an edge probability of exactly 0 or 1) or only in constants.", "anchors": ["pyhawkes/internals/bias.py:GammaBias.log_likelihood", "pyhawkes/internals/weights.py:SpikeAndSlabGammaWeights.log_likelihood", "pyhawkes/internals/weights.py:GammaMixtureWeights.log_likelihood", "pyhawkes/internals/impulses.py:DirichletImpulseResponses.log_likelihood"]}
{"id": "C88", "title": "log_probability is the joint log density", "statement": "model.log_probability(), documented as the joint log probability of the data and the parameters, is the log likelihood plus the log prior density of all parameters, at least up to a constant, so that comparing it across samples compares joint densities.", "quantifier": "every model state (background rates, adjacency, weights, impulse responses, network), every data set list, discrete and continuous time", "why_tests_cant": "Equality up to a constant concerns all pairs of states; a missing term shows only when the corresponding block of parameters changes.", "anchors": ["pyhawkes/models.py:_DiscreteTimeNetworkHawkesModelBase.log_prior", "pyhawkes/models.py:_DiscreteTimeNetworkHawkesModelBase.log_probability", "pyhawkes/models.py:ContinuousTimeNetworkHawkesModel.log_prior", "pyhawkes/models.py:ContinuousTimeNetworkHawkesModel.log_probability"]}
{"id": "C89", "title": "network.log_probability is the network's log prior", "statement": "network.log_probability() returns the log prior density of the network's parameters (block weights, labels, connection probabilities, scales) for every network class.", "quantifier": "every number of blocks and nodes, every prior setting, every parameter value, every network class", "why_tests_cant": "The value must be right for every number of blocks; with one block the normalising constant happens to be right, so a small test passes.", "anchors": ["pyhawkes/internals/network.py:_StochasticBlockModelBase.log_likelihood", "pyhawkes/internals/network.py:StochasticBlockModelFixedSparsity.log_likelihood", "pyhawkes/internals/network.py:ErdosRenyiFixedSparsity.log_likelihood", "pyhawkes/internals/distributions.py:Beta"]}
{"id": "C90", "title": "All Gibbs updates target the same joint density", "statement": "Every step of resample_model (parents, background rates, impulse responses, weights, adjacency, network) draws from a conditional of one and the same joint density of parameters, attributions and data: the densities requested for each block equal, up to a constant, that joint density as a function of the block, with the other blocks held at their current values (for steps that integrate something out, the integral of it). Otherwise the sweep has no common stationary distribution and the samples are not posterior samples.", "quantifier": "every model (spike-and-slab or mixture), network, prior, data set list, current state with positive parameters, and every value of the block being drawn", "why_tests_cant": "Consistency between steps is about densities at every point, not about samples; each step can look right in isolation (a plausible posterior) while disagreeing with another step about the shared model.", "anchors": ["pyhawkes/models.py:DiscreteTimeNetworkHawkesModelSpikeAndSlab.resample_model", "pyhawkes/models.py:DiscreteTimeNetworkHawkesModelGammaMixture.resample_model", "pyhawkes/internals/parents.py:DiscreteTimeParents.resample", "pyhawkes/internals/weights.py:SpikeAndSlabGammaWeights.resample", "pyhawkes/internals/weights.py:GammaMixtureWeights.resample", "pyhawkes/internals/network.py:GibbsSBM.resample"]}
{"id": "C91", "title": "resample_from_mf draws from the variational posterior", "statement": "resample_from_mf sets every parameter to an independent draw from its variational factor: background rates from Gamma(mf_alpha, mf_beta), edges Bernoulli(mf_p), each weight from the gamma component its edge selects, impulse responses from Dirichlet(mf_gamma), network parameters and labels from theirs; the means of these laws are the expectations the model reports, no self edges appear when self-connections are disallowed, and a network the user fixed is left alone.", "quantifier": "every gamma-mixture model in a valid state, every network class, every outcome of the draws", "why_tests_cant": "The claim is about the laws requested for every entry and their independence; a test sees a few samples, and two identical absent-edge weights or a rare self edge look like chance.", "anchors": ["pyhawkes/models.py:DiscreteTimeNetworkHawkesModelGammaMixture.resample_from_mf", "pyhawkes/internals/weights.py:GammaMixtureWeights.resample_from_mf", "pyhawkes/internals/weights.py:GammaMixtureWeights.initialize_from_gibbs", "pyhawkes/internals/network.py:MeanFieldSBM.resample_from_mf", "pyhawkes/internals/network.py:ErdosRenyiModel.resample_from_mf"]}
{"id": "C92", "title": "Gibbs sampling, mean field and re-initialisation can be interleaved", "statement": "On a gamma-mixture model whose network supports mean field, any interleaving of add_data, resample_model, meanfield_coordinate_descent_step, sgd_step (step sizes in (0,1], one data set), resample_from_mf, weight_model.initialize_from_gibbs and initialize_with_standard_model keeps all Gibbs parameters and all variational parameters in their domains, and no such call with valid arguments raises.", "quantifier": "every model, network, prior, outcome of the draws and every finite sequence of these calls", "why_tests_cant": "The state space is shared by three inference methods; a bad interleaving (e.g. a scalar left in place of an array, a stale offset, a zero weight handed to the other method) shows up only in particular call orders.", "anchors": ["pyhawkes/models.py:DiscreteTimeNetworkHawkesModelGammaMixture", "pyhawkes/internals/weights.py:GammaMixtureWeights", "pyhawkes/internals/network.py:StochasticBlockModel", "pyhawkes/internals/bias.py:GammaBias", "pyhawkes/internals/impulses.py:DirichletImpulseResponses"]}
{"id": "C93", "title": "Reported network expectations are means under the variational posterior", "statement": "The stochastic block model's expected_p, expected_v, expected_log_p, expected_log_notp and expected_log_v return, for every pair of nodes, the mean over the independent posterior labels of the corresponding block-pair expectation.", "quantifier": "every number of nodes and blocks, every valid variational state, every ordered pair of nodes (including self pairs)", "why_tests_cant": "A sum over all C^K labelings for arbitrary membership rows; with one block, or with hard labels, wrong and right formulas agree.", "anchors": ["pyhawkes/internals/network.py:MeanFieldSBM.expected_p", "pyhawkes/internals/network.py:MeanFieldSBM.expected_v", "pyhawkes/internals/network.py:MeanFieldSBM.expected_log_p", "pyhawkes/internals/network.py:MeanFieldSBM.expected_log_notp", "pyhawkes/internals/network.py:MeanFieldSBM.expected_log_v"]}
{"id": "C94", "title": "fit_with_bfgs never makes the fit worse and respects its bounds", "statement": "Whatever points the optimiser visits, fit_with_bfgs terminates without raising, leaves every weight at or above 1e-16 and (with W_max) every interaction weight at or below W_max, changes nothing but the weights, and ends with a log posterior at least that of the starting weights moved into the bounds; each process's result depends on no other process's starting weights; per-process optima together are a joint optimum; a bounded stationary point is a global optimum for alpha >= 1; forbidden self weights stay at their placeholder.", "quantifier": "every model, data, starting weights, bound and every adaptive optimiser meeting the contract of a bounded descent method", "why_tests_cant": "The optimiser's callbacks overwrite the model while it searches, so the claim ranges over every adaptive sequence of evaluations, and global optimality over all weight matrices.", "anchors": ["pyhawkes/models.py:DiscreteTimeStandardHawkesModel.fit_with_bfgs", "pyhawkes/models.py:DiscreteTimeStandardHawkesModel.compute_gradient", "pyhawkes/models.py:DiscreteTimeStandardHawkesModel.log_posterior"]}
{"id": "C95", "title": "fit_with_bfgs_logspace is a correct change of variables", "statement": "fit_with_bfgs_logspace hands the optimiser a gradient that is the derivative of the objective it hands it (in the logarithms of the weights), ends with positive weights within W_max whose log posterior is at least that at the start, keeps forbidden self weights exactly, and at a point where its gradient vanishes the weights maximise the log posterior over all positive weights (alpha >= 1).", "quantifier": "every model, data, positive starting weights and every adaptive optimiser that never returns a worse point than its start", "why_tests_cant": "Derivative identities and optimality over all real vectors, and every adaptive evaluation sequence.", "anchors": ["pyhawkes/models.py:DiscreteTimeStandardHawkesModel.fit_with_bfgs_logspace", "pyhawkes/models.py:DiscreteTimeStandardHawkesModel._d_W_d_logW"]}
{"id": "C96", "title": "Fitting a nonlinear process never makes it worse, and stops only at global optima where the objective is convex", "statement": "fit_with_bfgs on a nonlinear process replaces each node's weights by the optimiser's answer and nothing else; whenever no answer has a worse objective than its start, the penalised log likelihood of every node, and without penalties (the constructor's defaults) the process's log_likelihood(), does not go down; for linear and exponential links a point no feasible neighbour beats is beaten by no feasible point.", "quantifier": "every process, data, link, penalties, starting weights and every answer of the optimiser", "why_tests_cant": "Global optimality ranges over all weight vectors, and the never-worse claim over every possible optimiser trajectory.", "anchors": ["pyhawkes/standard_models.py:_NonlinearHawkesNodeBase.fit_with_bfgs", "pyhawkes/standard_models.py:_NonlinearHawkesNodeBase.objective", "pyhawkes/standard_models.py:_NonlinearHawkesProcessBase.fit_with_bfgs"]}
{"id": "C97", "title": "A complete adjacency update leaves the posterior over networks invariant", "statement": "If the network is distributed according to its posterior (edge prior times the likelihood the model reports), then after one call of the adjacency update it still is: for every statistic of the network, its posterior mean after the update (averaging over the uniforms drawn) equals its posterior mean before. This holds for the spike-and-slab model in serial and in parallel and for the continuous-time model given the new weights; the gamma-mixture update draws the network exactly from its posterior with the weights integrated out.", "quantifier": "every number of processes, data, parameters, edge probabilities in [0,1], scheduling order and every real statistic of the network", "why_tests_cant": "Invariance of a distribution over 2^(K*K) networks is an identity between integrals over the random numbers, for every K and every data set; Monte Carlo tests only approximate it for tiny K.", "anchors": ["pyhawkes/internals/weights.py:SpikeAndSlabGammaWeights.resample", "pyhawkes/internals/weights.py:GammaMixtureWeights.resample", "pyhawkes/internals/weights.py:SpikeAndSlabContinuousTimeGammaWeights", "pyhawkes/internals/parallel_adjacency_resampling.py"]}
{"id": "C98", "title": "Reported variational expectations are means under the variational posterior", "statement": "The expected_* values a variational state reports (background rate, impulse response, weight, connection probability and scale, and the expected logarithms of each) are the means of those quantities under the gamma, Dirichlet, Bernoulli-gamma mixture and beta distributions whose parameters the state holds, i.e. integrals of density times value.", "quantifier": "every variational parameter in its domain, every process, pair, basis function and block", "why_tests_cant": "An identity between closed forms with digamma and improper integrals for all positive reals; tests can only compare quadrature or Monte Carlo at a few points.", "anchors": ["pyhawkes/internals/bias.py:GammaBias.expected_lambda0", "pyhawkes/internals/impulses.py:DirichletImpulseResponses.expected_g", "pyhawkes/internals/weights.py:GammaMixtureWeights.expected_W", "pyhawkes/internals/network.py:StochasticBlockModel.expected_v", "pyhawkes/internals/network.py:ErdosRenyiFixedSparsity.expected_v"]}
{"id": "C99", "title": "Continuous-time Gibbs updates are conditionals of one joint density", "statement": "There is one joint density of the continuous-time model (gamma background rates, normal-gamma impulse parameters, Bernoulli edges, gamma weights, network prior, and a Poisson cluster process of events with causes) such that every update made by resample_model draws from a conditional of it: the causes of all events given the parameters, each group of parameters given the causes, and each edge with the causes summed out; summing the causes out gives the likelihood log_likelihood reports.", "quantifier": "every parameter value in its domain, every set of recordings, every assignment of causes, every schedule of the parallel loops, every value of the uniforms", "why_tests_cant": "Stationarity rests on agreement of all the conditionals with one density at every state; sampling tests see a few states and cannot distinguish slightly inconsistent conditionals from Monte Carlo error.", "anchors": ["pyhawkes/models.py:ContinuousTimeNetworkHawkesModel.resample_model", "pyhawkes/internals/parents.py:ContinuousTimeParents.resample", "pyhawkes/internals/bias.py:ContinuousTimeGammaBias.resample", "pyhawkes/internals/impulses.py:ContinuousTimeImpulseResponses.resample", "pyhawkes/internals/weights.py:SpikeAndSlabContinuousTimeGammaWeights.resample"]}
{"id": "C100", "title": "Interrupted Gibbs sweeps leave a usable model", "statement": "If resample_model of a discrete-time network model is stopped by KeyboardInterrupt (or any asynchronous exception) between any two of its assignments, the model keeps its recordings, all parameters stay in their domains, every bin's events are either all attributed or not attributed at all, no edge the prior forbids is present, and later complete sweeps run without error and restore every invariant that holds for uninterrupted histories.", "quantifier": "every construction, every history of add_data calls, complete sweeps and interrupted sweeps, every interruption point, every outcome of the draws", "why_tests_cant": "The interruption can fall after any assignment of any sweep; a test hits a handful of these points, and the state left behind depends on the whole preceding history.", "anchors": ["pyhawkes/models.py:_DiscreteTimeNetworkHawkesModelBase", "pyhawkes/models.py:DiscreteTimeNetworkHawkesModelSpikeAndSlab.resample_model", "pyhawkes/models.py:DiscreteTimeNetworkHawkesModelGammaMixture.resample_model", "pyhawkes/internals/parents.py:DiscreteTimeParents.resample", "pyhawkes/internals/weights.py:SpikeAndSlabGammaWeights._resample_A_given_W", "pyhawkes/internals/network.py:StochasticBlockModel.resample"]}
{"id": "C101", "title": "Every edge of an adjacency update is decided by its own random number", "statement": "In one call of the adjacency update, serial or parallel, different edges are decided by different numbers of the random generator, and the caller's generator is moved past them, so that the update leaves the posterior over networks invariant when the generator's numbers are independent uniforms.", "quantifier": "every number of processes, data, parameters, edge probabilities, schedule of the workers and state of the generator, for the discrete- and the continuous-time spike-and-slab models", "why_tests_cant": "The joint law of all edges over every schedule of forked workers is not observable in single runs; each edge on its own has the right marginal law, so marginal statistics look right.", "anchors": ["pyhawkes/internals/weights.py:SpikeAndSlabGammaWeights._joblib_resample_A_given_W", "pyhawkes/internals/weights.py:SpikeAndSlabContinuousTimeGammaWeights._joblib_resample_A_given_W", "pyhawkes/internals/parallel_adjacency_resampling.py:_resample_column_of_A", "pyhawkes/internals/parallel_adjacency_resampling.py:_ct_resample_column_of_A"]}
{"id": "C102", "title": "initialize_with_standard_model without a fitted model fits one to the model's own data", "statement": "Calling initialize_with_standard_model with None fits a standard Hawkes model to the data the network model holds (the same counts and the same filtered features), never ends with a posterior worse than background rates alone, and leaves the network model with valid parameters that respect its settings (no self edges when self-connections are disallowed) and its data unchanged; the documented default means the argument can be left out.", "quantifier": "every model state in the domain, every list of data sets however they were added, every optimiser strategy within its bounds, every multinomial outcome", "why_tests_cant": "It ranges over all data sets, all ways of adding them and every adaptive behaviour of the numerical optimiser.", "anchors": ["pyhawkes/models.py:_DiscreteTimeNetworkHawkesModelBase.initialize_with_standard_model", "pyhawkes/models.py:DiscreteTimeNetworkHawkesModelSpikeAndSlab.initialize_with_standard_model", "pyhawkes/models.py:DiscreteTimeNetworkHawkesModelGammaMixture.initialize_with_standard_model"]}
{"id": "C103", "title": "The variational label update maximises the evidence bound over the labels", "statement": "The stochastic block model's mean-field update of the block memberships sets each node's membership probabilities to the unique maximiser, over that node's row, of the evidence lower bound (mean over independent labels of the log joint density of labels, edges and weights, plus the entropy of the labels); so the whole label update, with any step size in [0,1], never lowers that bound, nor the value get_vlb reports; a fixed-sparsity model uses its given connection probabilities.", "quantifier": "every number of nodes and blocks, every valid variational state, every step size, self-connections allowed or not", "why_tests_cant": "The optimum ranges over all probability rows and the bound averages over C^K labelings.", "anchors": ["pyhawkes/internals/network.py:MeanFieldSBM.mf_update_c", "pyhawkes/internals/network.py:MeanFieldSBM.get_vlb", "pyhawkes/internals/network.py:StochasticBlockModelFixedSparsity"]}
{"id": "C104", "title": "A newly constructed model starts at its prior", "statement": "Before any data is added or any update run, every object starts from its prior: the expected background rates, impulse responses, block connection probabilities and scales, and weights given an edge equal their prior means (zero divergence from the prior); a newly built continuous-time model is a draw from its prior with each edge present with the network's probability, serially or in parallel; a nonlinear process built with no regularisation arguments has no penalty in its objective.", "quantifier": "all hyperparameters, numbers of nodes/blocks/basis functions, all random draws made by the constructors, all soft labels drawn", "why_tests_cant": "A test builds a few models with default hyperparameters, where a wrong starting value often coincides with the right one; the statement is about every hyperparameter setting and every draw.", "anchors": ["pyhawkes/internals/network.py: MeanFieldSBM.__init__, expected_p, expected_v, expected_m, ErdosRenyiModel.__init__", "pyhawkes/internals/bias.py: GammaBias.__init__", "pyhawkes/internals/impulses.py: DirichletImpulseResponses.__init__", "pyhawkes/internals/weights.py: GammaMixtureWeights.__init__, SpikeAndSlabContinuousTimeGammaWeights.__init__", "pyhawkes/models.py: ContinuousTimeNetworkHawkesModel.__init__", "pyhawkes/standard_models.py: _NonlinearHawkesProcess.__init__"]}
{"id": "C105", "title": "The exact weight statistic agrees with the approximation the sampler uses", "statement": "compute_exact_weight_ss returns, for every pair of processes, the impulse mass of the parent's events that falls inside the recording: zero for an absent edge, never more than the parent's event count (the value compute_approx_weight_ss gives and every weight update uses), equal to it when the parent's last bins are empty; and it is the statistic of the exact likelihood (rate summed over the recording = background + weight times statistic).", "quantifier": "all recordings, bases, impulse weights, adjacency matrices, bin widths and process pairs", "why_tests_cant": "A test compares the two statistics on one recording with dt = 1; the bound, the exact equality condition and the units must hold for every recording, basis and bin width.", "anchors": ["pyhawkes/internals/parents.py: DiscreteTimeParents.compute_exact_weight_ss, compute_approx_weight_ss, compute_weight_ss", "pyhawkes/models.py: compute_rate"]}
{"id": "C106", "title": "Refused calls raise a definite kind of exception", "statement": "A call that the library refuses raises the same kind of exception whatever the state: gradient and SGD steps of the standard model without data or with a bare index (ValueError, TypeError), rates of a data set that does not exist (IndexError, the default being the first data set), the stability check (AxisError), block-model constructors (AssertionError for a violated requirement, ValueError when labels of two or more nodes are passed), nonlinear and continuous-time add_data (AssertionError, apart from the exactly described ValueError, TypeError and AttributeError cases), the Python parent sampler (AssertionError for a non-positive count, ValueError when no cause has a rate) and Discrete.log_probability.", "quantifier": "all models, arguments, shapes, dtypes and indices", "why_tests_cant": "A caller that catches one exception class relies on no other class escaping for any argument; tests try a few bad arguments.", "anchors": ["pyhawkes/models.py: compute_gradient, sgd_step, compute_rate, check_stability, add_data", "pyhawkes/internals/network.py: _StochasticBlockModelBase.__init__, StochasticBlockModelFixedSparsity", "pyhawkes/internals/parents.py: _resample_Z_python", "pyhawkes/internals/distributions.py: Discrete.log_probability", "pyhawkes/standard_models.py: add_data"]}
{"id": "C107", "title": "Interrupted queries leave the model as it was", "statement": "If heldout_log_likelihood or copy_sample is interrupted (Ctrl-C, a signal handler, an exception part-way) at any point, the model afterwards has the same parameters and the same data sets as before the call.", "quantifier": "all models of the four families, held-out recordings, crash points and histories of interrupted calls", "why_tests_cant": "The crash point is chosen by the environment; a test can interrupt at one place but not between every two assignments of every query.", "anchors": ["pyhawkes/models.py: heldout_log_likelihood, copy_sample", "pyhawkes/standard_models.py: heldout_log_likelihood, add_data, remove_data, copy_sample, copy_node"]}
{"id": "C108", "title": "Interrupted variational steps", "statement": "If meanfield_coordinate_descent_step or sgd_step (step size in (0,1]) is interrupted (Ctrl-C, signal handler) at any point, any number of times, every variational parameter stays in its domain, the recordings, hyperparameters and priors are untouched, and later steps run without error; a complete coordinate-descent step afterwards divides every count among its parents again and does not depend on the half-written attributions. An interrupted sgd_step has claimed its window unless it was stopped before the offset was assigned: the next call goes on with the following window.", "quantifier": "all models, data, histories of steps, and all crash points of every step", "why_tests_cant": "The crash point is chosen by the environment: a test interrupts at one place, not between every two assignments of every step of every history.", "anchors": ["pyhawkes/models.py: meanfield_coordinate_descent_step, sgd_step", "pyhawkes/internals/parents.py: _mf_update_Z_python", "pyhawkes/internals/bias.py: mf_update_lambda0", "pyhawkes/internals/weights.py: meanfieldupdate_kappa_v, meanfieldupdate_p", "pyhawkes/internals/network.py: mf_update_p, mf_update_v, mf_update_m, mf_update_c"]}
{"id": "C109", "title": "Initialising a continuous-time model from a standard Hawkes model", "statement": "ContinuousTimeNetworkHawkesModel.initialize_with_standard_model copies the fitted model's background rates and connection weights (strictly positive), keeps as edges exactly the strongest connections - about the fraction p of them that the network model expects: fewer than p(K^2-1)+1 and, for distinct weights, at least p(K^2-1) - and fits delay parameters that reproduce the standard responses no worse than the current ones, so that sampling can go on from valid parameters; settings, network, data and the standard model are untouched, the network's ban on self connections is respected, and a refused call changes nothing.", "quantifier": "all fitted standard models, all continuous-time models of any size, all answers of the least-squares optimiser within its contract", "why_tests_cant": "The optimiser's answer, the number and ties of the weights and the network class vary; a test sees one fitted model.", "anchors": ["pyhawkes/models.py: ContinuousTimeNetworkHawkesModel.initialize_with_standard_model", "pyhawkes/standard_models.py: StandardHawkesProcess, W, G, bias", "pyhawkes/internals/impulses.py: ContinuousTimeImpulseResponses.impulse"]}
{"id": "C110", "title": "Interrupted continuous-time Gibbs sweeps leave a usable model", "statement": "If resample_model of the continuous-time model is stopped by KeyboardInterrupt (or any asynchronous exception) between any two of its statements, the model keeps its events and hyperparameters, all parameters stay in their domains, every stored parent is the background or an earlier event within the window, no disallowed self edge is present (not even as a trial value), the log likelihood can be evaluated, the stored sufficient statistics belong to the stored parents, and a later complete sweep runs without error, restores every invariant of uninterrupted histories and does not depend on what the interrupted sweep left in the parents and statistics.", "quantifier": "every construction, every history of add_data, held-out evaluations, complete and interrupted sweeps, every interruption point, every outcome of the draws, every schedule of the parallel loops", "why_tests_cant": "The interruption can fall after any statement of any sweep; a test hits a handful of these points, and the state left behind depends on the whole preceding history.", "anchors": ["pyhawkes/models.py:ContinuousTimeNetworkHawkesModel.resample_model", "pyhawkes/internals/parents.py:ContinuousTimeParents.resample", "pyhawkes/internals/weights.py:ContinuousTimeSpikeAndSlabGammaWeights._resample_A_given_W", "pyhawkes/internals/impulses.py:ContinuousTimeImpulseResponses.resample", "pyhawkes/internals/network.py:StochasticBlockModel.resample"]}
{"id": "C111", "title": "The pure-Python continuous-time parent sampler is the same update as the compiled one", "statement": "resample_Z_python, the reference implementation of the parent update of a continuous-time data set, draws each parent from the same distribution as the compiled sampler (background with mass lambda0, each earlier event in the response window with mass effective weight times the density of the delay), accepts every data set add_data accepts, and leaves bkgd_ss, weight_ss and imp_ss in the form the other updates read.", "quantifier": "every model with parameters in their domain, every data set accepted by add_data, every outcome of the discrete draws", "why_tests_cant": "the agreement is between two conditional laws over all event histories; a test can run one history with one seed, and the failing cases (absent edges, simultaneous events, the shape of imp_ss) do not appear on a generic simulated data set", "anchors": ["pyhawkes/internals/parents.py: ContinuousTimeParents.resample_Z_python", "pyhawkes/internals/parents.py: ContinuousTimeParents.resample", "pyhawkes/internals/impulses.py: ContinuousTimeImpulseResponses.resample"]}
{"id": "C112", "title": "Training the standard model from its background-rate initialisation keeps the weights usable", "statement": "After data is added and initialize_to_background_rate is called, any sequence of gradient_descent_step and sgd_step calls (any step sizes, momenta and minibatches) leaves every weight a positive finite number and returns a finite log likelihood.", "quantifier": "every standard model with positive weights, every data list built by add_data, every history of training calls", "why_tests_cant": "it ranges over all data sets and all call sequences; the failing inputs are recordings in which some process never fires, which simulated test data does not contain", "anchors": ["pyhawkes/models.py: DiscreteTimeStandardHawkesModel.initialize_to_background_rate", "pyhawkes/models.py: DiscreteTimeStandardHawkesModel.gradient_descent_step", "pyhawkes/models.py: DiscreteTimeStandardHawkesModel.sgd_step", "pyhawkes/models.py: DiscreteTimeStandardHawkesModel.compute_gradient", "pyhawkes/models.py: DiscreteTimeStandardHawkesModel.fit_with_bfgs_logspace"]}
{"id": "C113", "title": "A stored data set does not follow the caller's arrays", "statement": "After add_data(S, F) or generate(keep=True), overwriting the arrays passed in or returned does not change what the model later computes from that data set: log-likelihoods, rates, statistics and parent updates are those of the data as they were when added.", "quantifier": "every sequence of add_data, generate, parameter changes, parent updates and queries, interleaved with arbitrary writes into the arrays the caller holds", "why_tests_cant": "Aliasing shows only for particular later writes and particular queries; the claim is over all interleavings.", "anchors": ["pyhawkes/models.py:_DiscreteTimeNetworkHawkesModelBase.add_data", "pyhawkes/models.py:_DiscreteTimeNetworkHawkesModelBase.compute_rate", "pyhawkes/models.py:_DiscreteTimeNetworkHawkesModelBase.generate", "pyhawkes/models.py:DiscreteTimeStandardHawkesModel.add_data", "pyhawkes/internals/parents.py:DiscreteTimeParents.__init__", "pyhawkes/internals/parents.py:DiscreteTimeParents.compute_exact_weight_ss"]}
{"id": "C114", "title": "Plots show the model they are given", "statement": "plot_network draws one arrow per ordered pair of different processes, visible exactly where the network has an edge and as wide as its weight; plot_adjacency_matrix shows every weight on a scale that covers them; plot_rates draws, per process, the rate of every bin and the count of every non-empty bin at the time of that bin; and a plot kept up to date through its handles always looks like a new plot of the model passed last.", "quantifier": "every model, stored data set, slice and bin size, and every sequence of updates of one drawing", "why_tests_cant": "The repository has no tests of plotting; a picture check looks at one drawing of one model, and the update claim ranges over all histories of updates.", "anchors": ["pyhawkes/models.py:_DiscreteTimeNetworkHawkesModelBase.plot", "pyhawkes/models.py:_DiscreteTimeNetworkHawkesModelBase.plot_network", "pyhawkes/models.py:_DiscreteTimeNetworkHawkesModelBase.plot_adjacency_matrix", "pyhawkes/models.py:_DiscreteTimeNetworkHawkesModelBase.plot_rates"]}
{"id": "C115", "title": "Simulated data have the law the likelihood describes", "statement": "generate(T) returns a given table of counts with exactly the probability the model assigns to it: the exponential of heldout_log_likelihood of that table times the factor dt^n/n! of every bin, which no parameter enters; the probabilities of all tables add up to one.", "quantifier": "every discrete-time network model, every number of bins and every table of counts", "why_tests_cant": "It equates two probability laws over an infinite set of tables; simulation tests look at a finite sample of one model and have sampling error.", "anchors": ["pyhawkes/models.py:_DiscreteTimeNetworkHawkesModelBase.generate", "pyhawkes/models.py:_DiscreteTimeNetworkHawkesModelBase.heldout_log_likelihood", "pyhawkes/models.py:_DiscreteTimeNetworkHawkesModelBase._poisson_log_likelihood", "pyhawkes/models.py:_DiscreteTimeNetworkHawkesModelBase.compute_rate"]}
{"id": "C116", "title": "check_stability decides whether activity stays bounded", "statement": "check_stability returns True exactly when the model's activity is bounded: the expected counts of data simulated from the discrete-time model stay below a fixed bound however long the run, and the mean cascade started by one event of the continuous-time model is finite.", "quantifier": "every discrete or continuous-time network model with non-negative weights, of every size", "why_tests_cant": "Boundedness is a statement about all simulation lengths and all weight matrices; it is a theorem of Perron-Frobenius type that no finite set of simulations can settle.", "anchors": ["pyhawkes/models.py:_DiscreteTimeNetworkHawkesModelBase.check_stability", "pyhawkes/models.py:_DiscreteTimeNetworkHawkesModelBase.generate", "pyhawkes/models.py:ContinuousTimeNetworkHawkesModel.check_stability", "pyhawkes/internals/weights.py:SpikeAndSlabGammaWeights.W_effective"]}
{"id": "C117", "title": "The reported likelihood is the model's probability with attributions summed out, and resampling attributions draws from their conditional law", "statement": "For discrete-time network models, exp(log_likelihood()) times the factor dt^n/n! of every bin is the probability of the counts: the joint probability of counts and event attributions summed over all attributions. Every legal attribution is produced by one resampling of the parents with exactly its conditional probability given the counts and the parameters, whichever sampler (numpy or GSL) is used, and these probabilities add up to one.", "quantifier": "all data sets with non-negative counts below 2^32, all non-negative weights and impulse responses, all positive background rates, all attributions of all events to background or (process, basis) causes", "why_tests_cant": "The number of attributions grows exponentially with the counts, and a law is a statement about all outcomes at once; a test can only compare frequencies of a few outcomes within sampling error.", "anchors": ["pyhawkes/internals/parents.py:DiscreteTimeParents.log_likelihood_single_process", "pyhawkes/internals/parents.py:DiscreteTimeParents._resample_Z_python", "pyhawkes/internals/parents.py:DiscreteTimeParents._resample_Z_gsl", "pyhawkes/models.py:_DiscreteTimeNetworkHawkesModelBase.log_likelihood"]}
{"id": "C118", "title": "Rounding never makes parent resampling fail, and hardly changes its probabilities", "statement": "In double-precision arithmetic, for any order in which NumPy adds a row, the probabilities the discrete-time parent sampler passes to the multinomial generator are finite, lie in [0,1], and those before the last add up to at most 1 + 9e-13, so np.random.multinomial (which refuses sums above 1 + 1e-12) accepts every row and resampling does not raise. Each probability is within relative error 1e-12 of the exact one.", "quantifier": "all data sets with counts below 2^32, all parameters that are doubles (background rates positive, the rest non-negative, none above 2^300), up to 2^64 causes, every summation order in which no value passes through more than 4000 additions (every order at all up to 4001 causes), both samplers", "why_tests_cant": "Rounding errors depend on every bit of the inputs and on NumPy's summation order; a refusal that needs an unlucky combination may never show up in tests and still stop a long run.", "anchors": ["pyhawkes/internals/parents.py:DiscreteTimeParents._resample_Z_python", "pyhawkes/internals/parents.py:DiscreteTimeParents._resample_Z_gsl"]}
{"id": "C119", "title": "Discrete/continuous conversion round trip in double precision", "statement": "With double-precision arithmetic, converting a count matrix to continuous time and binning the result with the same bin width over [0, returned T] gives the counts back, and neither conversion fails. What holds: it does whenever no uniform number drawn is within T*2^-51 of one (T the number of bins); for any uniform numbers the first conversion either raises AssertionError or every event is counted in its own bin or the next one, with every process's total preserved.", "quantifier": "all count matrices of at most 2^50 bins, all bin widths that are doubles between 2^-900 and 2^900, all uniform draws, every argsort", "why_tests_cant": "The failing draws have probability about T*2^-51 per event; tests with random draws practically never see them, and the rounding depends on every bit of the bin width.", "anchors": ["pyhawkes/utils/utils.py:convert_discrete_to_continuous", "pyhawkes/utils/utils.py:convert_continuous_to_discrete"]}
{"id": "C120", "title": "Process labels do not matter", "statement": "Rename the processes of a discrete-time network model (its rates, weights, adjacency, impulse weights, network prior or block labels) and its data in the same way. Then compute_rate gives the same rates under the new names, log_likelihood, heldout_log_likelihood, log_probability and get_vlb give the same number, add_data accepts or refuses the same data sets, generate fed with the same draws gives the same counts and rates under the new names, every distribution a Gibbs step samples from (parents, background rates, impulse weights, weights, edges, block parameters, block labels) is the one requested for the same process or pair before the renaming, and a mean-field update gives the renamed state.", "quantifier": "every number of processes, every permutation of them, every model, data set, network prior, minibatch size, index selection and uniform draw", "why_tests_cant": "the claim ranges over all permutations of all models and data sets; a transposed index or a dimension mix-up is invisible on symmetric examples", "anchors": ["pyhawkes/models.py:compute_rate", "pyhawkes/models.py:log_likelihood", "pyhawkes/models.py:heldout_log_likelihood", "pyhawkes/models.py:log_probability", "pyhawkes/models.py:add_data", "pyhawkes/models.py:generate", "pyhawkes/models.py:get_vlb", "pyhawkes/models.py:meanfield_coordinate_descent_step", "pyhawkes/internals/parents.py:DiscreteTimeParents", "pyhawkes/internals/weights.py:resample", "pyhawkes/internals/network.py:GibbsSBM"]}
{"id": "C121", "title": "Simulated continuous-time data have the law the likelihood describes", "statement": "The continuous-time generate(T) returns a path of events with exactly the density the model's likelihood assigns to it: summed over all ways to attribute every event to the background or an earlier event, the density of the random draws behind the path (siblings unordered, changed from draws to times) is the density the likelihood describes.", "quantifier": "every continuous-time network model, every end time, every answer of the random generator and every number of events", "why_tests_cant": "It equates two densities over paths of any length; a simulation test has sampling error and sees one model.", "anchors": ["pyhawkes/models.py:ContinuousTimeNetworkHawkesModel.generate", "pyhawkes/models.py:ContinuousTimeNetworkHawkesModel.log_likelihood", "pyhawkes/models.py:ContinuousTimeNetworkHawkesModel.heldout_log_likelihood"]}
{"id": "C122", "title": "The unit of time does not matter (discrete time)", "statement": "Describing the same discrete-time data and model in another unit of time (bin width and basis duration multiplied by c, background rates divided by c, the rate parameter of their prior multiplied by c, counts, weights, edges and mixing proportions unchanged) changes nothing but the unit: a normalised basis is the same density per new unit, rates are divided by c, simulation with the same draws gives the same counts, every log likelihood moves by the same constant (minus the number of events times ln c), every Gibbs update draws from the same distribution (background rates from the same one per new unit), the same random number picks the same edge, and every variational update, batch or stochastic, gives the same result in the new unit; the same calls fail.", "quantifier": "every c > 0, model, data set, minibatch size, random draw and variational step", "why_tests_cant": "It relates two runs for every scale factor, model and data set; a test compares a few, up to rounding.", "anchors": ["pyhawkes/internals/bases.py:CosineBasis.create_basis", "pyhawkes/internals/bases.py:IdentityBasis.create_basis", "pyhawkes/models.py:_DiscreteTimeNetworkHawkesModelBase.compute_rate", "pyhawkes/models.py:_DiscreteTimeNetworkHawkesModelBase.generate", "pyhawkes/models.py:_DiscreteTimeNetworkHawkesModelBase.heldout_log_likelihood", "pyhawkes/internals/parents.py", "pyhawkes/internals/weights.py", "pyhawkes/internals/bias.py:GammaBias"]}
{"id": "C123", "title": "The unit of time does not matter (continuous time)", "statement": "Describing the same recordings and continuous-time model in another unit of time (event times, recording lengths and dt_max multiplied by c, background rates divided by c, the rate parameter of their prior multiplied by c) changes nothing but the unit: the same recordings are accepted, rates are divided by c, every log likelihood moves by minus the number of events times ln c, the same random numbers select the same parents, edges and parameters in a whole Gibbs sweep, and simulation with the same random numbers gives the same events at times multiplied by c.", "quantifier": "every c > 0, model, recordings, schedule of the parallel loops and sequence of random numbers", "why_tests_cant": "It relates two runs for every scale factor, model and recording, including delays in margins of 1e-8 that a test would not hit.", "anchors": ["pyhawkes/internals/continuous_time_helpers.pyx", "pyhawkes/models.py:ContinuousTimeNetworkHawkesModel.generate", "pyhawkes/models.py:ContinuousTimeNetworkHawkesModel.log_likelihood", "pyhawkes/models.py:ContinuousTimeNetworkHawkesModel.resample_model", "pyhawkes/internals/impulses.py:ContinuousTimeImpulseResponses.impulse"]}
{"id": "C124", "title": "rvs() draws a component from its prior", "statement": "Every component of the model (background rates, weights, impulse responses, network, parents) offers rvs(size), which returns a draw of the requested size from the component's prior, of the form its log_likelihood accepts.", "quantifier": "every component, hyperparameter, requested size and sequence of random numbers", "why_tests_cant": "It ranges over all components, sizes and random answers; a test of one component says nothing of the others, and the type of the value must fit another method for every draw.", "anchors": ["pyhawkes/internals/bias.py:GammaBias.rvs", "pyhawkes/internals/weights.py:SpikeAndSlabGammaWeights.rvs", "pyhawkes/internals/weights.py:GammaMixtureWeights.rvs", "pyhawkes/internals/impulses.py:DirichletImpulseResponses.rvs", "pyhawkes/internals/impulses.py:SBMDirichletImpulseResponses", "pyhawkes/internals/network.py"]}
{"id": "C125", "title": "Process labels do not matter (continuous time)", "statement": "Renaming the processes of a continuous-time model and of its recordings changes nothing but the names: the same recordings are accepted, rates, integrated rates, impulse responses, log likelihood and log probability are the same, the same random numbers give every event the same parent event, and every parameter and edge update of the sampler is asked for with the parameters of the original process or pair.", "quantifier": "every permutation of the processes, model, recordings, pair of schedules of the parallel loops and random numbers", "why_tests_cant": "It relates two models for every permutation and recording; a test fixes both and cannot see a transposed index that happens to agree on its example.", "anchors": ["pyhawkes/internals/continuous_time_helpers.pyx", "pyhawkes/models.py:ContinuousTimeNetworkHawkesModel", "pyhawkes/internals/weights.py:SpikeAndSlabContinuousTimeGammaWeights", "pyhawkes/internals/impulses.py:ContinuousTimeImpulseResponses", "pyhawkes/internals/parents.py:SpikeAndSlabContinuousTimeParents"]}
{"id": "C126", "title": "Influence is additive and excitatory, and a weight is an expected number of further events", "statement": "In the network models an event can only raise rates, and effects add up: the rate of no events is the background rate and the excess rates of two recordings taken together add; one more event of process j changes no rate before it, lowers none, and brings at most W[j,k] (if the edge is present, otherwise 0) expected further events of process k, exactly that many once its response has died out; more events, larger background rates, larger weights or more edges never lower a rate, and with the same (increasing) random numbers never give fewer simulated events in any bin. In continuous time stronger connections never lower the rate at an event, and one more event of j raises the model's expected number of events of k by exactly the weight from j to k.", "quantifier": "every model in the parameter domain, recording, place of the extra event, comparison of two models, and sequence of random numbers", "why_tests_cant": "It compares rates and simulations for all pairs of models and recordings; a sign or index error may show only for particular lags, edges or coincidences.", "anchors": ["pyhawkes/models.py:DiscreteTimeNetworkHawkesModelSpikeAndSlab.compute_rate", "pyhawkes/models.py:DiscreteTimeNetworkHawkesModelSpikeAndSlab.generate", "pyhawkes/models.py:ContinuousTimeNetworkHawkesModel.compute_integrated_rate", "pyhawkes/models.py:ContinuousTimeNetworkHawkesModel.compute_rate_at_events", "pyhawkes/internals/continuous_time_helpers.pyx:compute_rate_at_events"]}
{"id": "C127", "title": "The mean-field parent update in double precision", "statement": "When the mean-field update of the expected parent counts is carried out in IEEE double precision it succeeds, and every expected count is finite, lies between 0 and the count of its bin, and agrees with the exact share (proportional to exp of the expected log parameters times the filtered count) up to a relative error of 2e-12, the counts of a bin adding up to its number of events with the same accuracy, whatever order NumPy adds in.", "quantifier": "every data set, expected log parameters, summation order and rounding of exp within a few units in the last place", "why_tests_cant": "Underflow, rounding and cancellation depend on the magnitude of every parameter and on NumPy's summation order; the failing range is one no ordinary test prior reaches.", "anchors": ["pyhawkes/internals/parents.py:DiscreteTimeParents._mf_update_Z_python", "pyhawkes/internals/parents.py:DiscreteTimeParents.meanfieldupdate", "pyhawkes/internals/bias.py:GammaBias.expected_log_lambda0"]}
{"id": "C128", "title": "A complete sweep over the block labels leaves the posterior over labellings invariant", "statement": "Given connections, weights and block parameters, resampling all labels of a block model (each node in turn, from the log probabilities handed to the discrete sampler, one uniform random number per node) leaves invariant the posterior over all labellings: if the labels are distributed according to the posterior before the sweep, they are so after it.", "quantifier": "every block model with positive parameters, network, weights, and function of the labelling; averages over all random numbers", "why_tests_cant": "Invariance is an identity between sums over all C^K labellings and integrals over all random numbers; sampling tests on small models cannot tell a slightly tilted stationary distribution from the right one.", "anchors": ["pyhawkes/internals/network.py:GibbsSBM.resample_c", "pyhawkes/internals/network.py:GibbsSBM.resample"]}
{"id": "C129", "title": "Gradient steps climb the log posterior and stop only at its maximum", "statement": "gradient_descent_step(stepsz) on a standard model with positive weights never lowers log_posterior(): each step either raises it or leaves every weight unchanged, and a step leaves the weights unchanged exactly when no admissible positive weights (self weights fixed when self-connections are disallowed) have a larger log posterior.", "quantifier": "all standard models with positive weights and non-negative filtered data, all counts, all step sizes, all competing weights", "why_tests_cant": "Tests run a few steps on one data set and see the objective rise; whether it can fall, and whether a stall is an optimum, is a statement about every data set, step size and competitor.", "anchors": ["pyhawkes/models.py: DiscreteTimeStandardHawkesModel.gradient_descent_step, compute_gradient, log_posterior"]}
{"id": "C130", "title": "The stochastic gradient step follows the posterior gradient on average", "statement": "Averaged over the data set np.random.choice picks, sgd_step's new velocity is momentum times the previous velocity plus the learning rate times a fixed multiple of the (log-weight) gradient of log_posterior, so that the mean step vanishes at the posterior maximum.", "quantifier": "all standard models with positive weights, any number of data sets of any lengths, any learning rate, momentum and previous velocity", "why_tests_cant": "A test sees one random minibatch; unbiasedness is a statement about the mean over the random choice, for every model and data.", "anchors": ["pyhawkes/models.py: DiscreteTimeStandardHawkesModel.sgd_step, compute_gradient"]}
{"id": "C131", "title": "Any basis object a model accepts works everywhere and keeps the meaning of the weights", "statement": "A discrete-time network model built with basis=obj behaves like one built from hyperparameters: add_data, likelihoods and generate work for every basis class of the library, and with a normalised basis a weight W[i,j] is the expected number of further events of j caused by one event of i.", "quantifier": "all basis objects (cosine, identity, any bin width and window), all models built on them, all simulation lengths and draws, all data", "why_tests_cant": "Tests use the default cosine basis built by the model itself; the claim is about every basis object that the constructor accepts.", "anchors": ["pyhawkes/models.py: _DiscreteTimeNetworkHawkesModelBase.__init__, generate, compute_rate", "pyhawkes/utils/basis.py: CosineBasis, IdentityBasis"]}
{"id": "C132", "title": "Several models, and component objects passed to a constructor", "statement": "Building and using any number of discrete-time network models in one program, in any order: a model that shares no component object with another behaves exactly as a model used alone, so in a program that passes no component objects every model is independent of all others. A model built with a given background, impulse-response, network or weights object works with that object consistently: its sweeps are the ordinary sweeps of the parameters it shows, and passing objects of the wrong size is refused.", "quantifier": "every program (any sequence of constructor calls, add_data and resample_model calls on any of the models built so far), every draw, every choice of passed objects", "why_tests_cant": "Interference between models is about every interleaving of calls and every choice of shared objects, including the module-level globals through which the parallel sampler passes its arguments; a test can only try a few programs.", "anchors": ["pyhawkes/models.py:_DiscreteTimeNetworkHawkesModelBase.__init__", "pyhawkes/models.py:resample_model", "pyhawkes/internals/weights.py:SpikeAndSlabGammaWeights.__init__", "pyhawkes/internals/weights.py:_joblib_resample_A_given_W", "pyhawkes/internals/parallel_adjacency_resampling.py:_resample_column_of_A", "pyhawkes/internals/impulses.py:DirichletImpulseResponses.impulses"]}
{"id": "C133", "title": "network.log_likelihood(x) is the log prior density of x", "statement": "For every network class, log_likelihood(x) of a tuple of network parameters x is the log prior density of those parameters: it depends on x and on the hyperparameters only, differences between two settings are exact log prior ratios, and the documented form (m, p, v) is accepted.", "quantifier": "all numbers of processes and blocks, all hyperparameters, all valid parameter tuples and all current states of the network object", "why_tests_cant": "It is an identity between real functions for all parameter values and table sizes; the dependence on hidden state (the network's own current parameters instead of x) only shows for arguments that differ from the current state.", "anchors": ["pyhawkes/internals/network.py:StochasticBlockModel.log_likelihood", "pyhawkes/internals/network.py:StochasticBlockModelFixedSparsity.log_likelihood", "pyhawkes/internals/network.py:ErdosRenyiFixedSparsity.log_likelihood"]}
{"id": "C134", "title": "The order of the recordings does not matter", "statement": "Calling add_data with the same recordings in another order changes nothing but their positions: log likelihoods, posteriors, gradients, initial rates, gradient steps, variational updates and the returned bound are the same; a Gibbs sampler that gives each recording the same random numbers goes through the same parameters and network for ever, whatever is added and sampled later, and attributes each recording's events to the same parents.", "quantifier": "every model, every permutation of any list of recordings, every later history of add_data and sweeps, discrete and continuous time", "why_tests_cant": "All permutations and all histories.", "anchors": ["pyhawkes/models.py:_DiscreteTimeNetworkHawkesModelBase.add_data", "pyhawkes/models.py:_DiscreteTimeNetworkHawkesModelBase.log_likelihood", "pyhawkes/models.py:DiscreteTimeNetworkHawkesModelSpikeAndSlab.resample_model", "pyhawkes/models.py:DiscreteTimeNetworkHawkesModelGammaMixture.meanfield_coordinate_descent_step", "pyhawkes/models.py:ContinuousTimeNetworkHawkesModel.resample_model"]}
{"id": "C135", "title": "No allowed state is out of the samplers' reach", "statement": "Whatever state the sampler is in and whatever the data, one Gibbs update of the adjacency matrix (spike-and-slab serial or parallel, gamma mixture, continuous time) has positive probability of producing each network the prior allows (no edge where p is 0, every edge where p is 1), and probability zero of producing any other; one sweep of the block labels has positive probability of producing each labelling; and the parent update gives positive probability to an attribution of the events exactly when it gives no event to a cause without rate. So no sampler can be trapped in part of the discrete state space.", "quantifier": "every model state with valid parameters, every data set, every current and target network, labelling or attribution", "why_tests_cant": "Reachability is about all states and a positive probability, however small; no finite run shows it.", "anchors": ["pyhawkes/internals/weights.py:SpikeAndSlabGammaWeights._resample_A_given_W", "pyhawkes/internals/weights.py:SpikeAndSlabGammaWeights._joblib_resample_A_given_W", "pyhawkes/internals/weights.py:GammaMixtureWeights._resample_A_given_W", "pyhawkes/internals/weights.py:SpikeAndSlabContinuousTimeGammaWeights._resample_A_given_W", "pyhawkes/internals/network.py:StochasticBlockModel.resample_c", "pyhawkes/internals/parents.py:DiscreteTimeParents.resample"]}
{"id": "C136", "title": "Repeated network updates forget their start and converge", "statement": "Repeating the adjacency update with everything else fixed (spike-and-slab serial or parallel, gamma mixture, continuous time), from any network, the mean of every statistic of the network after n updates approaches its posterior mean at a geometric rate that does not depend on the start; repeating the sweep over the block labels, from any labelling, does the same with the density the label sweep targets.", "quantifier": "every model state with valid parameters, every data set, every starting network or labelling, every statistic of the network or labelling, all n", "why_tests_cant": "A limit statement over all starts and statistics about the law of a random process.", "anchors": ["pyhawkes/internals/weights.py:SpikeAndSlabGammaWeights._resample_A_given_W", "pyhawkes/internals/weights.py:SpikeAndSlabGammaWeights._joblib_resample_A_given_W", "pyhawkes/internals/weights.py:GammaMixtureWeights._resample_A_given_W", "pyhawkes/internals/weights.py:SpikeAndSlabContinuousTimeGammaWeights._resample_A_given_W", "pyhawkes/internals/network.py:StochasticBlockModel.resample_c"]}
{"id": "C137", "title": "A recording may be cut wherever the last dt_max was silent", "statement": "If no process has an event within reach (dt_max) before a bin, a discrete-time recording may be cut at that bin: adding the two parts gives the log likelihood of adding the whole, held-out log likelihoods add up, and the rates of the whole are the rates of the parts one after the other. With the same random numbers the Gibbs sampler goes through the same parameters, and attributes the same events to the same parents, whether it was given the whole or the parts; coordinate-ascent variational steps give the same parameters and bounds. Without the silence the rates differ.", "quantifier": "every model, every pair of recordings of any lengths with a silent end to the first, every index and bin, every later history of additions and sweeps", "why_tests_cant": "An equality over all parameter values, recordings and cut points.", "anchors": ["pyhawkes/models.py:_DiscreteTimeNetworkHawkesModelBase.add_data", "pyhawkes/models.py:_DiscreteTimeNetworkHawkesModelBase.log_likelihood", "pyhawkes/models.py:_DiscreteTimeNetworkHawkesModelBase.heldout_log_likelihood", "pyhawkes/models.py:_DiscreteTimeNetworkHawkesModelBase.compute_rate", "pyhawkes/utils/basis.py:Basis.convolve_with_basis"]}
{"id": "C138", "title": "A continuous-time recording may be cut wherever the last dt_max was silent", "statement": "If no process has an event within dt_max before some time, a continuous-time recording may be cut there: adding the two parts gives the log likelihood of adding the whole, held-out log likelihoods add up, the rates at the events are those of the parts, and a parent update with the same uniforms attributes every event as the updates of the parts do, so that counts and sums of transformed delays add up (squared deviations up to the spread between the parts' means). The weight and edge updates then draw the same values. Without the silence the rates differ.", "quantifier": "every model, every pair of recordings of any lengths with a silent end to the first, every uniforms, every schedule of the parallel loops", "why_tests_cant": "An equality over all parameter values, recordings, cut points, draws and thread schedules.", "anchors": ["pyhawkes/models.py:ContinuousTimeNetworkHawkesModel.add_data", "pyhawkes/models.py:ContinuousTimeNetworkHawkesModel.log_likelihood", "pyhawkes/models.py:ContinuousTimeNetworkHawkesModel.heldout_log_likelihood", "pyhawkes/models.py:ContinuousTimeNetworkHawkesModel.compute_rate_at_events", "pyhawkes/internals/parents.py:ContinuousTimeParents.resample", "pyhawkes/internals/continuous_time_helpers.pyx:ct_resample_Z_logistic_normal", "pyhawkes/internals/weights.py:SpikeAndSlabContinuousTimeGammaWeights.resample"]}
