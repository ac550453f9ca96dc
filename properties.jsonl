{"id": "C01", "title": "safe_int32_increment saturates", "statement": "safe_int32_increment(c) is c+1 for every int32 c below 2^31-1 and 2^31-1 at 2^31-1; hence a counter started at 0 and incremented n times equals min(n, 2^31-1) and never wraps or decreases.", "quantifier": "every int32 value and every number of increments", "why_tests_cant": "2^32 inputs and unboundedly long runs cannot be enumerated", "anchors": ["optax/_src/numerics.py:safe_int32_increment"]}
{"id": "C02", "title": "safe_norm value and gradient", "statement": "safe_norm(x, m) equals max(||x||, m) for every array x and real m; for m >= 0 its forward derivative in every direction is finite (the directional derivative of ||x|| when ||x||>m, and 0 when ||x||<=m), whereas the naive jnp.maximum(jnp.linalg.norm(x), m) has a NaN derivative at x=0 (and so has safe_norm when m < 0).", "quantifier": "every shape, array content, min_norm and tangent", "why_tests_cant": "value/derivative claims over a continuum", "anchors": ["optax/_src/numerics.py:safe_norm"]}
{"id": "C03", "title": "chain is sequential composition", "statement": "For every non-empty list of transformations, tree and history, chain feeds the updates through the transformations in order, gives each its own state slot and the same params, and returns the list of new states; a state list of the wrong length raises ValueError and chain() with no argument raises; nesting chains does not change the produced updates; identity is neutral.", "quantifier": "every list of (arbitrary) transformations, every state list, every history of updates", "why_tests_cant": "tests compose a few concrete transforms; the law must hold for arbitrary user-defined transforms", "anchors": ["optax/_src/combine.py:chain", "optax/_src/base.py:identity"]}
{"id": "C04", "title": "clip bounds", "statement": "clip(d) with d>=0 returns, for every finite updates tree, a tree of the same structure, shapes and dtypes in which each element is the input clamped to [-d,d]: in-range elements are untouched, out-of-range ones become +-d; it is idempotent and leaves the state untouched.", "quantifier": "every tree, element and d>=0", "why_tests_cant": "continuum of inputs", "anchors": ["optax/_src/clipping.py:clip"]}
{"id": "C05", "title": "clip_by_global_norm", "statement": "clip_by_global_norm(m), m>0: the result is c*updates for one scalar 0<c<=1 (direction preserved across all leaves), its global norm is min(||updates||, m); updates with norm below m are returned unchanged. With m=0 the all-zero gradient yields NaN.", "quantifier": "every finite tree of updates and m>0", "why_tests_cant": "norm claims over a continuum and over all tree shapes", "anchors": ["optax/_src/clipping.py:clip_by_global_norm", "optax/_src/linear_algebra.py:global_norm"]}
{"id": "C06", "title": "adaptive_grad_clip", "statement": "adaptive_grad_clip(c,eps): for every leaf and every output unit (whole array when at most one non-trivial dimension; axis-0 columns for rank 2/3; HWI fibres for rank 4) the unit's norm after clipping is at most c*max(param unit norm, eps); units already below the bound are unchanged; clipped units are non-negative multiples of the input; leaves of higher rank and missing params raise ValueError.", "quantifier": "every tree of updates/params, every unit, c>=0, eps>=0", "why_tests_cant": "unit-wise claim over all shapes/values", "anchors": ["optax/_src/clipping.py:adaptive_grad_clip", "optax/_src/clipping.py:unitwise_norm", "optax/_src/clipping.py:unitwise_clip"]}
{"id": "C07", "title": "keep_params_nonnegative", "statement": "With keep_params_nonnegative last, apply_updates yields max(0, p+u) for every element, hence never a negative parameter; in IEEE binary32/64 arithmetic the new parameter is never negative either (it is >=0 or NaN, NaN only if p+u or p is NaN/infinite), for all bit patterns. Missing params raise ValueError. (The docstring's remark that a negative parameter is always moved to 0 is false when p+u>0.)", "quantifier": "every params/updates tree, every element, every pair of floats", "why_tests_cant": "2^64 float pairs; unbounded training histories", "anchors": ["optax/_src/constrain.py:keep_params_nonnegative", "optax/_src/update.py:apply_updates"]}
{"id": "C08", "title": "zero_nans", "statement": "zero_nans returns the updates with exactly the NaN elements replaced by 0 and all others (including Inf) untouched; the state flags, per leaf, exactly whether the last update contained a NaN, independent of earlier history; init flags are all False.", "quantifier": "every tree, every history, every scalar type with a NaN test", "why_tests_cant": "all positions/histories of NaNs", "anchors": ["optax/_src/constrain.py:zero_nans"]}
{"id": "C09", "title": "apply_updates keeps structure, shape and dtype", "statement": "apply_updates(params, updates) returns a tree with the structure, shapes and dtypes of params whose elements are p+u cast to the dtype of p, even if updates have a wider dtype; a tree-structure mismatch raises.", "quantifier": "every pair of trees of matching structure and shapes, any dtypes", "why_tests_cant": "all trees/dtype combinations", "anchors": ["optax/_src/update.py:apply_updates"]}
{"id": "C10", "title": "incremental_update is polyak averaging", "statement": "incremental_update(new, old, s) is element-wise s*new+(1-s)*old; for 0<=s<=1 it lies between old and new; s=1 gives new and s=0 gives old; iterating it n times against constant new leaves error (1-s)^n*(old-new); and against a sequence it is the exponential moving average.", "quantifier": "every tree, step size and number of iterations", "why_tests_cant": "unbounded iteration, continuum of inputs", "anchors": ["optax/_src/update.py:incremental_update"]}
{"id": "C11", "title": "periodic_update", "statement": "A target copy maintained by periodic_update with period k>=1 equals, after any number n of steps, the online parameters at the last step divisible by k (or the initial copy if none); it never mixes old and new.", "quantifier": "every sequence of online parameters and every period", "why_tests_cant": "unbounded histories", "anchors": ["optax/_src/update.py:periodic_update"]}
{"id": "C12", "title": "trace closed form", "statement": "After n updates g_1..g_n, trace(decay) emits sum_i decay^(n-i) g_i per element (and g_n + decay*that when nesterov), independent of params; with |g_i|<=G and 0<=decay<1 the output is bounded by G/(1-decay).", "quantifier": "every history, tree, element, decay", "why_tests_cant": "unit tests run a handful of fixed histories on fixed small trees; the claim is about every history, tree and hyper-parameter", "anchors": ["optax/_src/transform.py:trace"]}
{"id": "C13", "title": "ema closed form and debiasing", "statement": "ema(decay): the debiased output after n updates is the weighted mean of the history with weights proportional to decay^(n-i) (weights sum to 1, so constant gradients are reproduced and the output stays within the range of the history). With debias=False the emitted updates are the raw input, not the average (the accumulator is kept but never emitted).", "quantifier": "every history, tree, element, 0<=decay<1", "why_tests_cant": "unit tests run a handful of fixed histories on fixed small trees; the claim is about every history, tree and hyper-parameter", "anchors": ["optax/_src/transform.py:ema", "optax/_src/transform.py:_update_moment", "optax/_src/transform.py:_bias_correction"]}
{"id": "C14", "title": "scale_by_rss (Adagrad)", "statement": "The output is g_n/sqrt(acc_n+eps) with acc_n = init + sum g_i^2 (0 when acc_n=0); the accumulator never decreases; the output magnitude never exceeds 1 for init,eps>=0.", "quantifier": "every history, tree, element", "why_tests_cant": "unit tests run a handful of fixed histories on fixed small trees; the claim is about every history, tree and hyper-parameter", "anchors": ["optax/_src/transform.py:scale_by_rss"]}
{"id": "C15", "title": "scale_by_rms", "statement": "The output is g_n/sqrt(nu_n+eps) with nu_n the exponential average of squares started at initial_scale; nu_n>=0 and |output|<=1/sqrt(1-decay).", "quantifier": "every history, tree, element", "why_tests_cant": "unit tests run a handful of fixed histories on fixed small trees; the claim is about every history, tree and hyper-parameter", "anchors": ["optax/_src/transform.py:scale_by_rms"]}
{"id": "C16", "title": "scale_by_stddev never takes the root of a negative number", "statement": "The centred second moment nu_n - mu_n^2 is >=0 at every step for initial_scale>=0 and 0<=decay<=1, so for eps>0 the output g_n/sqrt(nu_n-mu_n^2+eps) is finite for every finite history.", "quantifier": "every history, tree, element", "why_tests_cant": "an invariant over unbounded histories", "anchors": ["optax/_src/transform.py:scale_by_stddev"]}
{"id": "C17", "title": "scale_by_adam closed form", "statement": "The n-th output is mhat/(sqrt(vhat+eps_root)+eps) where mhat, vhat are the bias-corrected exponential averages of the gradients and squared gradients; it is finite for eps>0; params are ignored.", "quantifier": "every history, tree, element, 0<=b1,b2<1", "why_tests_cant": "unit tests run a handful of fixed histories on fixed small trees; the claim is about every history, tree and hyper-parameter", "anchors": ["optax/_src/transform.py:scale_by_adam"]}
{"id": "C18", "title": "Adam step-size bounds and invariances", "statement": "First step gives g/(|g|+eps) (eps_root=0); constant gradients give that at every step; with b1^2<b2 the output of step n is bounded by (1-b1)/(1-b1^n) * sqrt((1-b2^n)/(1-b2)) * sqrt(sum_{k<n} (b1^2/b2)^k); multiplying all gradients by c>0 leaves the output unchanged when eps=eps_root=0.", "quantifier": "every history, element and admissible hyper-parameters", "why_tests_cant": "unbounded histories, continuum of hyper-parameters", "anchors": ["optax/_src/transform.py:scale_by_adam"]}
{"id": "C19", "title": "scale_by_belief closed form", "statement": "The second moment accumulates (g_n - mu_{n-1})^2, i.e. the deviation from the PREVIOUS first moment, and the output is mhat/(sqrt(vhat+eps_root)+eps); finite whenever eps_root>0.", "quantifier": "every history, tree, element", "why_tests_cant": "unit tests run a handful of fixed histories on fixed small trees; the claim is about every history, tree and hyper-parameter", "anchors": ["optax/_src/transform.py:scale_by_belief"]}
{"id": "C20", "title": "scale_by_yogi as implemented", "statement": "The second moment is b2*v + (1-b2)*(sign(v-g^2) g^2)^2, i.e. it stays non-negative and finite; the rule of the Yogi paper, v - (1-b2) sign(v-g^2) g^2, is NOT what the code computes.", "quantifier": "every history, tree, element", "why_tests_cant": "unit tests run a handful of fixed histories on fixed small trees; the claim is about every history, tree and hyper-parameter", "anchors": ["optax/_src/transform.py:scale_by_yogi"]}
{"id": "C21", "title": "scale_by_radam rectification", "statement": "The output is the bias-corrected momentum while ro_n<threshold and r_n*mhat/(sqrt(vhat+eps_root)+eps) otherwise, where for threshold>4 the rectifier r_n is a real number in [0,1]; never NaN for eps>0.", "quantifier": "every history, tree, element, 3/5<b2<1", "why_tests_cant": "all steps n; r_n's radicand must be non-negative for every n", "anchors": ["optax/_src/transform.py:scale_by_radam"]}
{"id": "C22", "title": "scale and scale_by_schedule", "statement": "scale(s) multiplies by s; the n-th call (n>=1) of scale_by_schedule(f) multiplies by f(n-1) (the count saturates at 2^31-1), so the schedule sees every count 0,1,2,... exactly once, in order.", "quantifier": "every history and every schedule function", "why_tests_cant": "arbitrary schedules and unbounded call sequences", "anchors": ["optax/_src/transform.py:scale", "optax/_src/transform.py:scale_by_schedule"]}
{"id": "C23", "title": "add_decayed_weights", "statement": "Adds weight_decay*p element-wise, for every matching tree; raises ValueError when params is None.", "quantifier": "every tree, element", "why_tests_cant": "continuum", "anchors": ["optax/_src/transform.py:add_decayed_weights"]}
{"id": "C24", "title": "scale_by_trust_ratio", "statement": "Per leaf: if both clamped norms are positive the update is scaled by their ratio, so with min_norm=0 its norm becomes the parameter norm; if either is zero the update passes unchanged; never divides by zero; direction is preserved; params=None raises.", "quantifier": "every tree, leaf, min_norm>=0", "why_tests_cant": "continuum incl. the zero-norm corner cases", "anchors": ["optax/_src/transform.py:scale_by_trust_ratio"]}
{"id": "C25", "title": "add_noise formula and key discipline", "statement": "The n-th call adds (eta/n^gamma)*normal(k) element-wise where each (step, leaf) pair uses its own PRNG key; no key is ever used for two draws nor both drawn from and split, over any history.", "quantifier": "every history and tree, any splittable PRNG", "why_tests_cant": "key reuse is invisible to tests of samples and must be excluded for all step/leaf pairs", "anchors": ["optax/_src/transform.py:add_noise"]}
{"id": "C26", "title": "apply_every", "statement": "apply_every(k), k>=1: at the steps k,2k,3k,... the output is the sum of the last k gradients and at all other steps it is zero, for finite gradients; the total emitted after mk steps is the total received. With non-finite gradients the zero is not guaranteed: 0*NaN leaks NaN at non-emitting steps and the accumulator is never cleared of it.", "quantifier": "every history, tree, k", "why_tests_cant": "unit tests run a handful of fixed histories on fixed small trees; the claim is about every history, tree and hyper-parameter", "anchors": ["optax/_src/transform.py:apply_every"]}
{"id": "C27", "title": "centralize", "statement": "For leaves of rank>=2 every slice along axis 0 of the output has mean zero and the output differs from the input by a constant per slice; lower-rank leaves are unchanged; idempotent.", "quantifier": "every tree and shape", "why_tests_cant": "all shapes and values", "anchors": ["optax/_src/transform.py:centralize", "optax/_src/transform.py:_subtract_mean"]}
{"id": "C28", "title": "SM3 accumulators dominate", "statement": "With b2=1, at every step and element the preconditioner used by scale_by_sm3 is at least the sum of all squared gradients so far at that element (and non-decreasing per-axis accumulators), so |g*preconditioner|<=1; a scalar (rank-0) parameter makes update raise IndexError.", "quantifier": "every history, every rank>=1 tensor shape", "why_tests_cant": "covers all shapes/histories; relational max/min invariant", "anchors": ["optax/_src/transform.py:scale_by_sm3"]}
{"id": "C29", "title": "flatten round-trip and transparency", "statement": "For trees with at least one leaf and a common dtype, flatten's re-assembly is the exact inverse of its concatenation (structure, shapes, order), and wrapping any element-wise transformation in flatten produces exactly the same updates for every history; a leafless tree raises; mixed dtypes are silently promoted.", "quantifier": "every tree structure/shape and every element-wise inner transformation", "why_tests_cant": "all pytrees/shapes", "anchors": ["optax/_src/wrappers.py:flatten"]}
{"id": "C30", "title": "apply_if_finite state machine", "statement": "Over any history: a non-finite update is rejected (zero updates, inner state untouched) as long as the current run of consecutive non-finite updates has length <= max_consecutive_errors, and accepted after; finite updates are always passed to the inner transformation; notfinite_count is the length of the current run, last_finite its flag and total_notfinite the total count (up to integer width).", "quantifier": "every history, inner transformation, bound", "why_tests_cant": "unit tests run a handful of fixed histories on fixed small trees; the claim is about every history, tree and hyper-parameter", "anchors": ["optax/_src/wrappers.py:apply_if_finite"]}
{"id": "C31", "title": "MultiSteps accumulation", "statement": "With every_k_schedule k(.), the wrapped optimiser is called exactly once per k(j) mini-steps in gradient step j, with the mean (or sum) of exactly those k(j) gradients; in between the updates are all zero and the inner state is untouched; has_updated is true exactly after such a call; MultiSteps(opt,k) on a history equals opt on the block means.", "quantifier": "every history, inner optimiser, schedule k(.)>=1", "why_tests_cant": "unit tests run a handful of fixed histories on fixed small trees; the claim is about every history, tree and hyper-parameter", "anchors": ["optax/_src/wrappers.py:MultiSteps"]}
{"id": "C32", "title": "MultiSteps drops params", "statement": "MultiSteps never passes params to the wrapped optimiser, so wrapping any transformation that requires params (e.g. adamw, lamb, add_decayed_weights) raises ValueError at the very first update call, whatever is passed.", "quantifier": "every history, params and k", "why_tests_cant": "absence of a path for all inputs", "anchors": ["optax/_src/wrappers.py:MultiSteps.update"]}
{"id": "C33", "title": "masked", "statement": "Leaves (or subtrees, for prefix masks) with mask False pass through bit-for-bit; those with mask True are exactly what the inner transformation returns on the list of selected subtrees; inner state is built from and fed only selected entries; structure is preserved; a structural mismatch raises ValueError; an all-True mask gives the inner transformation and an all-False mask the identity. Falsy params (empty container, scalar 0) are treated as None.", "quantifier": "every tree, mask, inner transformation, history", "why_tests_cant": "all masks \u00d7 trees", "anchors": ["optax/_src/wrappers.py:masked"]}
{"id": "C34", "title": "maybe_update", "statement": "At the n-th call (n from 0) the inner transformation is applied iff should_update_fn(n); otherwise updates and inner state pass through untouched; the call counter counts every call.", "quantifier": "every history, predicate and inner transformation", "why_tests_cant": "unit tests run a handful of fixed histories on fixed small trees; the claim is about every history, tree and hyper-parameter", "anchors": ["optax/_src/wrappers.py:maybe_update"]}
{"id": "C35", "title": "lookahead synchronisation", "statement": "lookahead(sync_period=k): applying its updates, the slow parameters change only at calls k,2k,...; there fast=slow=slow_old+a*(fast_old+u-slow_old); at other calls fast moves by exactly the inner update; sync_period<1 raises ValueError.", "quantifier": "every history, inner optimiser ignoring params, k>=1, step size", "why_tests_cant": "unit tests run a handful of fixed histories on fixed small trees; the claim is about every history, tree and hyper-parameter", "anchors": ["optax/_src/lookahead.py:lookahead", "optax/_src/lookahead.py:_lookahead_update"]}
{"id": "C36", "title": "lookahead state reset and its limits", "statement": "With reset_state=True the inner state after a synchronisation equals the inner init state on the current fast params for finite states, and is the inner optimiser's otherwise; a NaN/Inf in the inner state survives the reset (0*NaN). The inner optimiser receives the LookaheadParams pair as params, so any inner optimiser using params leaf-wise fails.", "quantifier": "every history and inner optimiser", "why_tests_cant": "all states incl. non-finite ones", "anchors": ["optax/_src/lookahead.py:lookahead"]}
{"id": "C37", "title": "DP per-example clipping and sensitivity", "statement": "Every example's contribution to the aggregated sum has global norm at most l2_norm_clip (and is unclipped when its norm is below it); replacing one example changes the pre-noise sum by at most 2*l2_norm_clip in global norm, and adding an all-zero example changes nothing.", "quantifier": "every batch of per-example gradient trees, every batch size", "why_tests_cant": "the privacy guarantee rests on all neighbouring datasets", "anchors": ["optax/_src/privacy.py:differentially_private_aggregate"]}
{"id": "C38", "title": "DP noise and key discipline", "statement": "The output is (clipped sum + l2_norm_clip*noise_multiplier*normal)/batch, each leaf at each step uses a fresh PRNG key that is never reused or split again; inconsistent batch dimensions or rank-0 leaves raise ValueError (IndexError when the tree has no leaf or its first leaf has rank 0), and nothing else raises.", "quantifier": "every history, tree, splittable PRNG", "why_tests_cant": "key reuse is not observable by sampling tests", "anchors": ["optax/_src/privacy.py:differentially_private_aggregate"]}
{"id": "C39", "title": "constant, polynomial and linear schedules", "statement": "polynomial_schedule is init_value up to transition_begin, end_value from transition_begin+transition_steps on, and in between the polynomial interpolation: monotone and between the two for power>=0; negative transition_begin behaves as 0, transition_steps<=0 is the constant init_value; linear is power 1.", "quantifier": "every count and every parameter", "why_tests_cant": "all counts/hyper-parameters", "anchors": ["optax/_src/schedule.py:polynomial_schedule", "optax/_src/schedule.py:linear_schedule", "optax/_src/schedule.py:constant_schedule"]}
{"id": "C40", "title": "piecewise_constant_schedule", "statement": "The value at count s is init times the product of the factors whose boundary is <= s (the docstring says < s, which is false at s = boundary), whatever order the dictionary was written in; negative factors raise ValueError.", "quantifier": "every dictionary and count", "why_tests_cant": "all dictionaries/counts", "anchors": ["optax/_src/schedule.py:piecewise_constant_schedule"]}
{"id": "C41", "title": "exponential_decay", "statement": "init_value up to transition_begin, then init*rate^(t/steps) (floor of the exponent when staircase), clipped by end_value from below when rate<1 and from above otherwise; monotone non-increasing in the count for 0<rate<=1 and init>=0; degenerate steps/rate give the constant.", "quantifier": "every count and every parameter", "why_tests_cant": "all counts/hyper-parameters", "anchors": ["optax/_src/schedule.py:exponential_decay"]}
{"id": "C42", "title": "cosine_decay_schedule", "statement": "Starts at init_value, is non-increasing, stays within [alpha*init, init], equals alpha*init from decay_steps on; non-positive decay_steps raise.", "quantifier": "every count>=0, alpha<=1, init>=0", "why_tests_cant": "all counts/hyper-parameters", "anchors": ["optax/_src/schedule.py:cosine_decay_schedule"]}
{"id": "C43", "title": "piecewise_interpolate_schedule", "statement": "At the i-th boundary (sorted, positive) the value is init times the product of the first i factors, from the last boundary on it stays constant, and between consecutive boundaries it lies between the two boundary values; bad type or negative factor raises. A boundary at 0 makes the schedule NaN at every count.", "quantifier": "every dictionary, count, interpolation type", "why_tests_cant": "all dictionaries/counts", "anchors": ["optax/_src/schedule.py:piecewise_interpolate_schedule"]}
{"id": "C44", "title": "one-cycle schedules", "statement": "linear/cosine one-cycle start at peak/div, reach peak_value at int(pct_start*steps), end at the documented final value and never exceed peak_value; non-positive transition_steps raise; if int(pct_start*steps)=0 the schedule is NaN everywhere.", "quantifier": "every count and admissible parameters", "why_tests_cant": "all counts/hyper-parameters", "anchors": ["optax/_src/schedule.py:linear_onecycle_schedule", "optax/_src/schedule.py:cosine_onecycle_schedule"]}
{"id": "C45", "title": "join_schedules, warm-up and SGDR", "statement": "join_schedules with increasing boundaries evaluates exactly the schedule of the interval containing the step, at the offset from its boundary; warmup_cosine/exponential start at init, reach peak at warmup_steps and end at end_value; sgdr restarts at the cumulative boundaries.", "quantifier": "every list of schedules/boundaries, every step", "why_tests_cant": "arbitrary schedules", "anchors": ["optax/_src/schedule.py:join_schedules", "optax/_src/schedule.py:warmup_cosine_decay_schedule", "optax/_src/schedule.py:warmup_exponential_decay_schedule", "optax/_src/schedule.py:sgdr_schedule"]}
{"id": "C46", "title": "inject_hyperparams", "statement": "At the n-th update (n>=1) every scheduled hyper-parameter equals its schedule at n (not n-1), whatever was written to state.hyperparams; every numeric one equals the last manual override (or its initial value); static, boolean and non-numeric ones are passed through; each update is exactly the inner factory's update with these values.", "quantifier": "every factory, argument set, history of updates and manual overrides", "why_tests_cant": "arbitrary factories and interleavings of overrides", "anchors": ["optax/_src/schedule.py:inject_hyperparams"]}
{"id": "C47", "title": "l2_loss and huber_loss", "statement": "l2 is half the squared error; huber equals l2 when |err|<=delta and delta*(|err|-delta/2) beyond; non-negative, even, continuous, at most l2; its derivative is the l2 derivative clipped to [-delta,delta].", "quantifier": "every prediction/target and delta>0", "why_tests_cant": "continuum, derivative claim", "anchors": ["optax/_src/loss.py:l2_loss", "optax/_src/loss.py:huber_loss"]}
{"id": "C48", "title": "smooth_labels", "statement": "Maps probability vectors to probability vectors (non-negative, sum 1) for 0<=alpha<=1; the greedy category of a one-hot gets (1-alpha)+alpha/n and the others alpha/n.", "quantifier": "every label array and alpha", "why_tests_cant": "continuum", "anchors": ["optax/_src/loss.py:smooth_labels"]}
{"id": "C49", "title": "sigmoid_binary_cross_entropy", "statement": "Equals -l*ln(sigmoid x)-(1-l)*ln(1-sigmoid x), is finite and >=0 for labels in [0,1] and any finite logit, and is symmetric under (x,l)->(-x,1-l).", "quantifier": "every logit, label", "why_tests_cant": "continuum/overflow-free formulation", "anchors": ["optax/_src/loss.py:sigmoid_binary_cross_entropy"]}
{"id": "C50", "title": "softmax_cross_entropy", "statement": "Equals -sum l_i ln softmax_i, is >=0 for non-negative labels, invariant under adding a constant to the logits when labels sum to 1, and at least the entropy of the labels (Gibbs).", "quantifier": "every batch shape, logits, labels", "why_tests_cant": "continuum; Gibbs inequality", "anchors": ["optax/_src/loss.py:softmax_cross_entropy"]}
{"id": "C51", "title": "cosine similarity/distance", "statement": "cosine_similarity lies in [-1,1] for every epsilon>=0 with non-zero clamped norms, is symmetric, invariant under positive rescaling when epsilon is not active, 1 on identical non-zero vectors; cosine_distance = 1 - similarity in [0,2].", "quantifier": "every pair of arrays, epsilon", "why_tests_cant": "continuum; Cauchy-Schwarz", "anchors": ["optax/_src/loss.py:cosine_similarity", "optax/_src/loss.py:cosine_distance"]}
{"id": "C52", "title": "global_norm", "statement": "Is the Euclidean norm of all elements: 0 iff all elements are 0, absolutely homogeneous, satisfies the triangle inequality, and does not depend on how leaves are nested or split.", "quantifier": "every pair of trees", "why_tests_cant": "continuum", "anchors": ["optax/_src/linear_algebra.py:global_norm"]}
{"id": "C53", "title": "power_iteration", "statement": "Terminates after at most num_iters steps; for a symmetric PSD matrix whose iterates do not vanish the returned vector has norm 1 and the returned value is a Rayleigh quotient, between 0 and every upper bound of the quadratic form; starting at an eigenvector returns its eigenvalue.", "quantifier": "every symmetric matrix, start vector, iteration bound and tolerance", "why_tests_cant": "all matrices / start vectors (the start vector is random)", "anchors": ["optax/_src/linear_algebra.py:power_iteration"]}
{"id": "C54", "title": "matrix_inverse_pth_root", "statement": "Coupled-Newton invariant: every iterate satisfies M = H^p * A_damped for p in {1,2,4,8}, so the result H satisfies max|H^p A_damped - I| <= the reported error; the loop stops at the first step that meets its criterion and takes at most num_iters steps.  The iteration converges quadratically: with the default arguments the error is within the tolerance for every symmetric positive semidefinite matrix of moderate norm, unless the very first step is abandoned, which does happen on well-conditioned matrices and then yields a multiple of the identity.  For other p (e.g. 3) a wrong power is used and the invariant fails.", "quantifier": "every symmetric PSD matrix of any size, start vector, p, ridge, tolerance, iteration count", "why_tests_cant": "all matrices; invariant over unbounded iteration", "anchors": ["optax/_src/linear_algebra.py:matrix_inverse_pth_root"]}
{"id": "C55", "title": "hvp, hessian_diag, fisher_diag", "statement": "Given exact derivatives, hvp is the Hessian times v, hessian_diag is the diagonal of the Hessian in ravel order and fisher_diag the element-wise square of the gradient.", "quantifier": "every loss with a Hessian, every params tree", "why_tests_cant": "all losses/trees", "anchors": ["optax/_src/second_order.py:hvp", "optax/_src/second_order.py:hessian_diag", "optax/_src/second_order.py:fisher_diag"]}
{"id": "C56", "title": "set_diags / tile_second_to_last_dim", "statement": "set_diags replaces exactly the diagonals of every DxD matrix and leaves all other entries untouched; tile_second_to_last_dim(a)[n,i,j]=a[n,i].", "quantifier": "every N, D and array", "why_tests_cant": "all shapes", "anchors": ["optax/_src/utils.py:set_diags", "optax/_src/utils.py:tile_second_to_last_dim"]}
{"id": "C57", "title": "measure-valued estimators", "statement": "For sample n and dimension d the estimate is (f(x with coordinate d replaced by the positive sample) - f(x with coordinate d replaced by the negative sample))/c with all other coordinates shared; constants give 0 and, with coupling, affine functions give the exact mean gradient direction; distribution builders other than multi_normal raise ValueError.", "quantifier": "every function, sample count, dimension, PRNG", "why_tests_cant": "arbitrary f and samples", "anchors": ["optax/_src/stochastic_gradient_estimators.py:measure_valued_jacobians", "optax/_src/stochastic_gradient_estimators.py:measure_valued_estimation_mean", "optax/_src/stochastic_gradient_estimators.py:measure_valued_estimation_std"]}
{"id": "C58", "title": "control variates algebra", "statement": "control_variates_jacobians returns f_jac - c*(cv_jac + cv_param_grad - expected_grad) per sample; when the control variate's stochastic and exact expectations agree its mean contribution cancels; the coefficient from estimate_control_variate_coefficients minimises the summed sample variance (eps=0); the moving-average baseline's state after one debiased step on a constant function is that constant but after the second it is not.", "quantifier": "every function, estimator, state history", "why_tests_cant": "arbitrary functions/samples", "anchors": ["optax/_src/control_variates.py:control_variates_jacobians", "optax/_src/control_variates.py:estimate_control_variate_coefficients", "optax/_src/control_variates.py:moving_avg_baseline", "optax/_src/control_variates.py:control_delta_method"]}
{"id": "C59", "title": "sgd alias", "statement": "sgd(lr,momentum,nesterov) emits -lr * (momentum trace) for every history; with a schedule the n-th step uses schedule(n-1); parameters after n steps are p_0 - lr*sum of the traces.", "quantifier": "every history and hyper-parameter", "why_tests_cant": "unit tests run a handful of fixed histories on fixed small trees; the claim is about every history, tree and hyper-parameter", "anchors": ["optax/_src/alias.py:sgd", "optax/_src/alias.py:_scale_by_learning_rate"]}
{"id": "C60", "title": "adaptive aliases", "statement": "adam, adamw, adabelief, adagrad, rmsprop, radam, yogi, sm3, lamb are exactly their scaling rule followed by (decoupled weight decay, trust ratio and) multiplication by -lr; adamw adds -lr*wd*p independent of the adaptive scaling.", "quantifier": "every history and hyper-parameter", "why_tests_cant": "unit tests run a handful of fixed histories on fixed small trees; the claim is about every history, tree and hyper-parameter", "anchors": ["optax/_src/alias.py:adam", "optax/_src/alias.py:adamw", "optax/_src/alias.py:lamb", "optax/_src/alias.py:adagrad", "optax/_src/alias.py:rmsprop", "optax/_src/alias.py:radam", "optax/_src/alias.py:yogi", "optax/_src/alias.py:adabelief", "optax/_src/alias.py:sm3"]}
{"id": "C61", "title": "fromage", "statement": "Applying a fromage step gives (p - lr*ratio*g)/sqrt(1+lr^2); when norms are above min_norm the parameter norm after a step never exceeds (1+lr)/sqrt(1+lr^2) times the norm before (no blow-up), for every gradient.", "quantifier": "every params/gradient tree, lr>=0", "why_tests_cant": "continuum", "anchors": ["optax/_src/alias.py:fromage"]}
{"id": "C62", "title": "noisy_sgd and dpsgd aliases", "statement": "noisy_sgd adds noise after scaling by -lr (noise not scaled by lr); dpsgd is DP aggregation, then momentum, then -lr.", "quantifier": "every history, PRNG", "why_tests_cant": "unit tests run a handful of fixed histories on fixed small trees; the claim is about every history, tree and hyper-parameter", "anchors": ["optax/_src/alias.py:noisy_sgd", "optax/_src/alias.py:dpsgd"]}
{"id": "C63", "title": "params required", "statement": "Every transformation that reads params (keep_params_nonnegative, add_decayed_weights, scale_by_trust_ratio, adaptive_grad_clip and every alias/chain containing them) raises ValueError when params is None, before producing any update; all other transformations give the same result whatever params is.", "quantifier": "every transformation, state and updates", "why_tests_cant": "all inputs", "anchors": ["optax/_src/base.py:NO_PARAMS_MSG", "optax/_src/transform.py:add_decayed_weights"]}
{"id": "C64", "title": "state and update signatures are invariant", "statement": "For every optimiser alias, if the gradients have the structure, shapes and dtypes of params then update never raises, the updates have exactly the signature of the params, and the new state has exactly the signature of the old one (so lax.scan, lax.cond, checkpoints work).", "quantifier": "every alias, history, tree", "why_tests_cant": "all trees/histories", "anchors": ["optax/_src/alias.py", "optax/_src/transform.py", "optax/_src/combine.py"]}
{"id": "C65", "title": "unsaturated counters wrap", "statement": "Counters declared int64 (apply_if_finite, MultiSteps, maybe_update) are int32 unless x64 is enabled and are incremented without saturation: after 2^31 increments they are negative, so maybe_update's predicate then receives a negative step; below the limit they are exact.", "quantifier": "every number of calls", "why_tests_cant": "2^31 steps cannot be tested", "anchors": ["optax/_src/wrappers.py:maybe_update", "optax/_src/wrappers.py:MultiSteps", "optax/_src/wrappers.py:apply_if_finite"]}
{"id": "C66", "title": "element independence", "statement": "For the element-wise transformations (trace, ema, rss, rms, stddev, adam, belief, yogi, scale, schedule, apply_every, weight decay, clip, zero_nans) the output at an element depends only on that element's own gradient history: two histories that agree there give identical outputs there, whatever happens elsewhere (including NaN/Inf).", "quantifier": "every pair of histories and position", "why_tests_cant": "non-interference over all pairs of histories", "anchors": ["optax/_src/transform.py"]}
{"id": "C67", "title": "loss gradients", "statement": "Differentiating the losses with jax gives the textbook gradients at every point, kinks included: l2_loss the error, huber_loss the error clipped to [-delta, delta], sigmoid_binary_cross_entropy sigmoid(logit) - label, softmax_cross_entropy softmax(logits) - labels for labels that sum to one.", "quantifier": "every array, target, delta and tangent", "why_tests_cant": "a continuum of inputs, including the measure-zero kinks", "anchors": ["optax/_src/loss.py:l2_loss", "optax/_src/loss.py:huber_loss", "optax/_src/loss.py:sigmoid_binary_cross_entropy", "optax/_src/loss.py:softmax_cross_entropy"]}
{"id": "C68", "title": "pathwise and score-function estimators; multi_normal", "statement": "multi_normal samples mean + scale * standard normal draw with a leading sample axis, and its log_prob is the log density of the diagonal Gaussian with scale exp(log_scale). pathwise_jacobians returns, per sample x_n = mu + sigma z_n, grad phi(x_n) for the mean and grad phi(x_n) * sigma * z_n for the log-scale; score_function_jacobians returns phi(x_n) times the gradient of the log density at x_n, without differentiating through the samples.", "quantifier": "every function, number of samples, dimension and outcome of the random draws", "why_tests_cant": "arbitrary functions, shapes and draws", "anchors": ["optax/_src/stochastic_gradient_estimators.py:score_function_jacobians", "optax/_src/stochastic_gradient_estimators.py:pathwise_jacobians", "optax/_src/utils.py:multi_normal", "optax/_src/utils.py:MultiNormalDiagFromLogScale"]}
{"id": "C69", "title": "clip in IEEE arithmetic", "statement": "In IEEE-754 arithmetic of each of the four dtypes, for every bit pattern of the gradient and every non-negative max_delta: clip's output is NaN exactly when the gradient is NaN and otherwise lies in [-D, D], D being max_delta rounded to the dtype; a gradient already inside is returned unchanged, others are moved to the nearer bound (infinities included).", "quantifier": "every dtype, every bit pattern, every max_delta >= 0, every tree and history", "why_tests_cant": "2^16..2^64 bit patterns times all thresholds", "anchors": ["optax/_src/clipping.py:clip"]}
{"id": "C70", "title": "adaptive scalings never produce NaN from finite gradients in IEEE arithmetic", "statement": "scale_by_rms, scale_by_rss and scale_by_adam never emit NaN for finite gradients, at any step of any run, although squares may overflow or underflow, provided the hyperparameters survive rounding to the dtype; in particular Adam with default hyperparameters on float32, bfloat16 and float64 leaves with gradients up to 2^122. An overflowing square however freezes the element: every later update is 0.", "quantifier": "every history of gradients, every step, every dtype, every platform math library satisfying the stated bounds", "why_tests_cant": "unbounded histories and all bit patterns; rounding, overflow and underflow interact", "anchors": ["optax/_src/transform.py:scale_by_rms", "optax/_src/transform.py:scale_by_rss", "optax/_src/transform.py:scale_by_adam"]}
{"id": "C73", "title": "apply_updates in IEEE arithmetic: correct rounding and stagnation", "statement": "apply_updates returns the correctly rounded sum at every element (overflow to infinity, NaN only from NaN or opposite infinities). Consequently updates below 2^-(p+2) times the parameter are lost: any number of such updates leaves every parameter equal to its initial value.", "quantifier": "every pair of bit patterns, every dtype, any number of consecutive updates", "why_tests_cant": "all bit patterns and unbounded numbers of steps", "anchors": ["optax/_src/update.py:apply_updates"]}
{"id": "C71", "title": "default Adam hyperparameters do not survive rounding to low-precision leaf dtypes", "statement": "Python-float hyperparameters are cast to the leaf's dtype. In float16 the default eps=1e-8 is exactly 0, so scale_by_adam emits NaN for every element whose gradients have all been zero; in bfloat16 the default b2=0.999 is exactly 1, so the second moment of an element can never decrease.", "quantifier": "every step, every state with non-negative second moment, every non-NaN gradient, every platform math library", "why_tests_cant": "quantifies over all states, gradients and step counts in IEEE arithmetic; the test-suite only runs float32", "anchors": ["optax/_src/transform.py:scale_by_adam", "optax/_src/transform.py:_update_moment", "optax/_src/alias.py:adam"]}
{"id": "C76", "title": "scale_by_stddev: rounding can make the variance estimate negative", "statement": "scale_by_stddev (rmsprop(centered=True)) computes nu - mu^2 + eps, which is non-negative in real arithmetic but not in IEEE arithmetic: with default hyperparameters and the constant float32 gradient 11 the update at the 136th step is NaN, on every platform whose rsqrt of a negative number is NaN.", "quantifier": "every platform math library; a specific history of 136 steps", "why_tests_cant": "the failure depends on rounding at a particular depth of history; the real-number claim needs all histories", "anchors": ["optax/_src/transform.py:scale_by_stddev", "optax/_src/alias.py:rmsprop"]}
{"id": "C72", "title": "schedules in IEEE arithmetic: exact end value, monotonicity, and the lost start", "statement": "In floating point polynomial_schedule returns exactly the rounded end_value from the end of the transition on; linear_schedule is monotone in the step count and never passes end_value; piecewise_constant_schedule equals the running product of the factors reached with a single rounding each. exponential_decay with a rate in (0,1) never increases, equals init_value until transition_begin, stays in [0, init_value] and never passes its end value. cosine_decay_schedule never increases, and stays between alpha * init_value and init_value. A linear schedule however need not start at init_value: linear_schedule(1e-8, 1.0, n) returns exactly 0 at step 0 with 32-bit floats.", "quantifier": "every init/end value, number of steps, begin, pair of step counts, factor list; every platform pow satisfying the stated identity", "why_tests_cant": "monotonicity and exactness under rounding must hold for all pairs of steps and all values", "anchors": ["optax/_src/schedule.py:polynomial_schedule", "optax/_src/schedule.py:linear_schedule", "optax/_src/schedule.py:piecewise_constant_schedule"]}
{"id": "C75", "title": "clip_by_global_norm in IEEE arithmetic: element bound, no NaN, and overflow of the squares", "statement": "On finite gradients of one dtype clip_by_global_norm never produces NaN or infinity and no element of the result exceeds max_norm in magnitude, exactly, whatever the rounding and the order of summation (max_norm not below 2^-62, resp. 2^-6 in float16). If however the square of one element overflows, the whole update of every leaf becomes zero.", "quantifier": "every tree, every bit pattern of finite elements, every summation order, every max_norm above the stated threshold", "why_tests_cant": "all bit patterns, unbounded numbers of elements and any order of accumulation", "anchors": ["optax/_src/clipping.py:clip_by_global_norm", "optax/_src/linear_algebra.py:global_norm"]}
{"id": "C74", "title": "losses in IEEE arithmetic: sign, NaN, monotonicity, overflow", "statement": "In floating point every element of l2_loss and huber_loss (finite positive delta) is NaN exactly when the error is, otherwise >= 0, +inf for an infinite error, and non-decreasing in the magnitude of the error; huber_loss equals l2_loss wherever |error| <= delta. sigmoid_binary_cross_entropy on finite logits and labels in [0,1] is finite (even at the largest finite logit) and >= 0, and exactly softplus(-x) / softplus(x) for the labels 1 / 0. An infinite logit of the right sign, whose loss is 0, gives NaN. smooth_labels keeps labels in [0,1] within [0,1] and keeps the order of the labels, in every dtype.", "quantifier": "every bit pattern of predictions, targets, logits and labels, every shape and pair of dtypes, every pair of positions, every exp/log1p mapping into [0,1]", "why_tests_cant": "all bit patterns, monotonicity over all pairs under rounding, any accuracy of the math library", "anchors": ["optax/_src/loss.py:l2_loss", "optax/_src/loss.py:huber_loss", "optax/_src/loss.py:sigmoid_binary_cross_entropy"]}
{"id": "C77", "title": "momentum in IEEE arithmetic: bounded, and its rounding error does not grow with the history", "statement": "For gradients bounded by (1-decay)*2^k every output of trace (heavy-ball or Nesterov) in any dtype with p bits of precision is finite, at most 2^k in magnitude and within 2^(k-p)/(1-decay) of the exact discounted sum of the gradients, for histories of any length.", "quantifier": "every dtype, every bit pattern of gradients within the bound, every decay in [0,1), every history length", "why_tests_cant": "the absence of error accumulation is a claim about unbounded histories and all rounding patterns", "anchors": ["optax/_src/transform.py:trace"]}
{"id": "C78", "title": "sgd and adagrad guarantees for every sequence of gradients, and convergence of sgd", "statement": "For any finite gradients whatsoever, n steps of sgd(lr) with apply_updates satisfy 2 lr sum <g_t, x_t - q> = |x_0-q|^2 - |x_n-q|^2 + lr^2 sum |g_t|^2 for every q, and adagrad's regret against any q within D of the iterates is at most (D^2/(2 lr)+lr) sum_i sqrt(a0+eps+sum g_i^2). Hence sgd minimises convex functions at rate |x0-q|^2/(2 lr n) + lr G/2, never increases a smooth function when lr <= 1/L, and converges at rate 1/n on smooth convex functions.", "quantifier": "every pytree of parameters, every gradient sequence, every comparison point, every number of steps, every convex or smooth objective", "why_tests_cant": "regret and convergence are statements about all objectives and all adversarial gradient sequences of any length", "anchors": ["optax/_src/alias.py:sgd", "optax/_src/alias.py:adagrad", "optax/_src/update.py:apply_updates"]}
{"id": "C79", "title": "The three gradient estimators are unbiased", "statement": "With multi_normal, the [n,k] entries of the jacobians returned by score_function_jacobians, pathwise_jacobians and measure_valued_jacobians (with and without coupling) have, as functions of the random draws behind coordinate k of sample n with every other draw held fixed, an expectation exactly equal to the derivative of the expected function value with respect to the mean, respectively the log-scale: for every continuous function of at most exponential growth (continuously differentiable for pathwise).", "quantifier": "every function, dimension, number of samples, entry, mean, log-scale and value of the other draws; expectation over the laws the code draws from (normal, Weibull of scale sqrt 2 and concentration 2, double-sided Maxwell, uniform)", "why_tests_cant": "an expectation is an integral over all draws and unbiasedness is claimed for all functions; a test averages finitely many samples of one function up to a tolerance", "anchors": ["optax/_src/stochastic_gradient_estimators.py:score_function_jacobians", "optax/_src/stochastic_gradient_estimators.py:pathwise_jacobians", "optax/_src/stochastic_gradient_estimators.py:measure_valued_jacobians", "optax/_src/utils.py:multi_normal"]}
{"id": "C80", "title": "Interchangeable configurations", "statement": "Configurations a user regards as the same really are: in exact arithmetic, starting from any parameters and for every finite history, both succeed and emit identical updates. Neutral: scale(1), trace(0) (nesterov or not), ema(0, debias), ema without debias, apply_every(1), a constant-1 schedule and add_decayed_weights(0) are identity. Fusion: scale a then b is scale ab, clip a then b is clip min(a,b), two weight decays add, a constant schedule is a scale. Commutation: a fixed scale moves across trace, ema and (with the bound scaled) clip; two schedules commute. Aliases: adamw without decay is adam, sgd with momentum 0 is sgd without momentum, rmsprop with a fixed learning rate may take momentum before or after it. Accumulation: apply_every(k) then scale or clip is MultiSteps of it with sums, with 1/k with means, and MultiSteps with k=1 is the wrapped optimiser. Outside these conditions (schedule vs momentum, clip vs scale, apply_every before momentum) they really differ.", "quantifier": "all trees of parameters of any shapes and dtypes, all finite gradient (and params) histories of any length, all coefficients, bounds, decays, schedules and learning rates, all accumulation lengths k from 1 to 2^31-1", "why_tests_cant": "an equivalence of two stateful programs over every history and every hyper-parameter: a test compares a few steps of a few configurations", "anchors": ["optax/_src/transform.py: scale, trace, ema, apply_every, add_decayed_weights, scale_by_schedule", "optax/_src/clipping.py: clip", "optax/_src/combine.py: chain", "optax/_src/alias.py: adam, adamw, sgd, rmsprop", "optax/_src/wrappers.py: MultiSteps"]}
{"id": "C81", "title": "Differentially private aggregation is differentially private", "statement": "T calls of differentially_private_aggregate, with independent standard normal noise, are (eps, delta)-differentially private: for two runs whose batches differ, at each call, in at most one example - the gradients of a call may depend on everything released before - the expectation of any test with values in [0,1] of the T released aggregates under one run is at most e^eps times that under the other plus delta, where delta = exp((al-1)(2 al T/noise_multiplier^2 - eps)) for every al > 1, hence exp(-(eps - 2T/m^2)^2 m^2/(8T)) for eps > 2T/m^2; and with half the sensitivity when the differing example is zero in one of the runs. The guarantee does not depend on l2_norm_clip, batch size, shapes or gradients, and the calls never fail. The same holds for the whole sequence of parameters published by T steps of training with dpsgd (any learning rate or schedule, momentum, Nesterov), the gradients of a step being any function of the parameters published before.", "quantifier": "all clipping norms and noise multipliers > 0, batch sizes, numbers of calls, tree shapes and dtypes, all adaptive strategies choosing the finite per-example gradients from the released history, all tests of the outputs that have an expectation, all eps and al", "why_tests_cant": "privacy is a statement about the distribution of outputs over all noise for all pairs of neighbouring data sets and adaptive strategies", "anchors": ["optax/_src/privacy.py: differentially_private_aggregate", "optax/_src/alias.py: dpsgd", "optax/_src/update.py: apply_updates"]}
{"id": "C82", "title": "SGD with momentum: regret, convex and smooth convergence", "statement": "Training with sgd(lr, momentum=b), 0 <= b < 1, Nesterov or not, and apply_updates never fails on finite parameters and gradients; against any sequence of gradients of squared norm at most G its regret to any fixed comparator q is bounded by the standard (1-b)|x0-q|^2/(2 lr) + n lr G (1+b)/(2 (1-b)^2); on a convex function the average and best of the first n iterates are within (1-b)|x0-q|^2/(2 lr n) + lr G (1+b)/(2(1-b)^2) of f(q); on an L-smooth function bounded below by m, with lr L <= (1-b)^2/2, the sum of the squared gradient norms is at most 4 (1-b)(f(x0)-m)/lr, so one of n gradients has squared norm at most 4(1-b)(f(x0)-m)/(lr n).", "quantifier": "all learning rates > 0, momentum coefficients in [0,1), both Nesterov settings, all trees of finite parameters, all gradient sequences / convex functions with bounded subgradients / smooth functions, all numbers of steps", "why_tests_cant": "a bound for every function of a class, every number of steps and every hyper-parameter", "anchors": ["optax/_src/alias.py: sgd", "optax/_src/transform.py: trace", "optax/_src/update.py: apply_updates"]}
{"id": "C83", "title": "Adam does not converge on every convex problem", "statement": "A limit of what may be relied on: for every learning rate, every b1, b2 with b1^2 < b2 (the defaults in particular), eps > 0 and eps_root >= 0, and every speed M, there is a finite training set with linear losses whose average loss grows with the parameters, such that cycling through it with adam and apply_updates never fails and increases every parameter by at least lr*M in every epoch for ever, while sgd with the same learning rate decreases every parameter by exactly lr per epoch.", "quantifier": "all learning rates > 0, hyper-parameters b1^2 < b2, eps, eps_root, all parameter trees and initial values, all numbers of epochs", "why_tests_cant": "divergence is a statement about all numbers of epochs; that no choice of hyper-parameters avoids it ranges over all of them", "anchors": ["optax/_src/alias.py: adam, sgd", "optax/_src/transform.py: scale_by_adam", "optax/_src/update.py: apply_updates"]}
{"id": "C84", "title": "Adam's speed limit and AdamW's bounded region", "statement": "Whatever finite gradients are supplied, training with adam never fails and moves no parameter further than 1/sqrt((1-b2)(1-b1^2/b2)) times the sum of the learning rates used; with adamw, weight_decay > 0 and lr*weight_decay <= 1 at every step, no parameter ever exceeds in magnitude the larger of its initial magnitude and 1/(weight_decay sqrt((1-b2)(1-b1^2/b2))).", "quantifier": "all learning rates and schedules >= 0, b1^2 < b2, eps, eps_root, weight decay, parameter trees, gradient sequences of any length", "why_tests_cant": "an invariant over all gradient sequences (adversarial ones included) and all numbers of steps", "anchors": ["optax/_src/alias.py: adam, adamw", "optax/_src/transform.py: scale_by_adam, additive_weight_decay", "optax/_src/update.py: apply_updates"]}
{"id": "C85", "title": "Linear convergence of sgd and Nesterov acceleration", "statement": "For every function that is m-strongly convex and L-smooth: sgd(lr) with lr <= 1/L brings the squared distance to the minimiser down by the factor 1 - lr m at every step, and sgd(1/L, momentum=(1-s)/(1+s), nesterov=True) with s = sqrt(m/L) brings it below (1 + L/m)(1-s)^t times the initial one after t steps; the losses converge at the same rates.", "quantifier": "all functions between the parabolas of curvature m and L, all parameter trees, starting points, numbers of steps", "why_tests_cant": "a rate over all functions of the class, dimensions and horizons", "anchors": ["optax/_src/alias.py: sgd", "optax/_src/transform.py: trace", "optax/_src/update.py: apply_updates"]}
{"id": "C86", "title": "Heavy-ball momentum may cycle for ever", "statement": "A limit of what may be relied on: sgd(1/9, momentum=4/9) without Nesterov, the choice that is optimal for quadratics with curvatures between 1 and 25, cycles for ever between three points on a one-dimensional (per coordinate) 1-strongly convex 25-smooth function when started at 3.3, never coming within 1/3 of the minimum, while sgd(1/25) and Nesterov momentum converge on the same function from every starting point.", "quantifier": "all numbers of steps, all parameter tree structures (and, for the convergence, all finite starting points)", "why_tests_cant": "that it never converges is a statement about all numbers of steps", "anchors": ["optax/_src/alias.py: sgd", "optax/_src/transform.py: trace", "optax/_src/update.py: apply_updates"]}
{"id": "C87", "title": "Assembled optimisers never raise and can be checkpointed", "statement": "Any optimiser assembled, to any depth, from the library's transformations (element-wise ones, learning rates, zero_nans, clip_by_global_norm, adaptive_grad_clip, centralize, scale_by_trust_ratio, add_noise, scale_by_sm3) with chain, apply_if_finite, maybe_update, MultiSteps, flatten and masked initialises, never raises on gradients with the signature of the parameters, returns updates of that signature and keeps the structure, shapes and dtypes of its state; saving the arrays of the state at any step and putting them into the structure of a freshly initialised state gives back the saved state, and the resumed run equals the uninterrupted one; the loop of update and apply_updates never raises and keeps the parameters' signature whatever the gradient function returns.", "quantifier": "all nestings of transformations and wrappers, all hyper-parameters, all parameter trees meeting the stated shape/dtype conditions, all histories, all interruption points, any arithmetic (NaN and Inf included)", "why_tests_cant": "the set of assembled optimisers is infinite (any nesting), and so are the histories and the points at which a run can be stopped", "anchors": ["optax/_src/combine.py: chain", "optax/_src/wrappers.py: flatten, apply_if_finite, MultiSteps, masked, maybe_update", "optax/_src/transform.py", "optax/_src/clipping.py", "optax/_src/constrain.py", "optax/_src/update.py: apply_updates"]}
{"id": "C88", "title": "A guarded training run never reaches NaN or Inf", "statement": "In IEEE arithmetic of every dtype, put zero_nans and clip(c) in front of sgd, momentum or Adam (default hyperparameters), or clip_by_global_norm(c) followed by zero_nans in front of a learning rate. Whatever the gradients are - NaN, infinities, any bit pattern, chosen at every step from the current parameters - and however many steps are made, no call raises and no parameter ever becomes NaN or infinite: every parameter stays below max(|initial value|, 2^(p+2) * (largest update)), p the precision of its dtype. The reverse order zero_nans, clip_by_global_norm is not safe: an infinite gradient element becomes NaN.", "quantifier": "all parameter trees, dtypes, learning rates and schedules, clipping thresholds, gradient functions (any bit patterns), numbers of steps", "why_tests_cant": "unbounded run length and adversarial gradients; a test can only try some", "anchors": ["optax/_src/constrain.py:zero_nans", "optax/_src/clipping.py:clip", "optax/_src/clipping.py:clip_by_global_norm", "optax/_src/transform.py:trace", "optax/_src/transform.py:scale_by_adam", "optax/_src/update.py:apply_updates"]}
{"id": "C89", "title": "adagrad and rmsprop reach stationary points", "statement": "adagrad with any learning rate, minimising any L-smooth function that is bounded below (convex or not): n steps never fail and the squared gradient norms at the visited points sum to at most a constant independent of n, so the gradients tend to 0 without tuning the rate to L. rmsprop (centered or not) with lr * L <= sqrt(eps) never increases the function, and while the partial derivatives stay bounded its squared gradient norms also sum to at most a constant.", "quantifier": "all smooth functions bounded below, parameter trees, learning rates, accumulators, eps, decays, numbers of steps", "why_tests_cant": "a claim about every function and every run length", "anchors": ["optax/_src/alias.py:adagrad", "optax/_src/alias.py:rmsprop", "optax/_src/transform.py:scale_by_rss", "optax/_src/transform.py:scale_by_rms", "optax/_src/transform.py:scale_by_stddev"]}
{"id": "C90", "title": "Full-batch Adam approaches stationary points", "statement": "adam with full gradients of any function whose gradient is L-Lipschitz, convex or not, bounded below, with partial derivatives within G at the visited points, b1^2 < b2: n < 2^31 steps never fail and the average squared gradient norm over the visited points is at most H (2 (f(x_0) - m) / (lr n) + lr N U^2 L (1 + L lr k / eps)) with H = sqrt(G^2 + eps_root) + eps, U = 1/sqrt((1-b2)(1-b1^2/b2)), k = b1 (1 + b1)/(1 - b1)^2.", "quantifier": "all such functions, parameter trees, hyperparameters, numbers of steps", "why_tests_cant": "a claim about every function and every run length", "anchors": ["optax/_src/alias.py:adam", "optax/_src/transform.py:scale_by_adam", "optax/_src/transform.py:bias_correction"]}
{"id": "C91", "title": "Clipping makes sgd safe where plain sgd explodes", "statement": "chain(clip_by_global_norm(c), sgd(lr)) on a function whose curvature may grow with its gradient ((L0, L1)-smooth, convex or not): with lr L0 <= 1/2, lr c L1 <= 1/2 and lr c within the radius of the smoothness bound, n steps never fail, no step is longer than lr c, every step decreases the function by at least lr/2 min(|g|, c)|g|, and if the function is bounded below by m the sum of min(|g|, c)|g| is at most 2 (f(x_0) - m)/lr, so the gradients tend to 0 from every starting point. Without the clipping no learning rate is safe: for every lr > 0 sgd on x^4 diverges at least like 2^n from every x with 4 lr x^2 >= 3.", "quantifier": "all such functions, parameter trees of one dtype, starting points, thresholds, learning rates, numbers of steps", "why_tests_cant": "a claim about every function, starting point and run length", "anchors": ["optax/_src/clipping.py:clip_by_global_norm", "optax/_src/alias.py:sgd", "optax/_src/update.py:apply_updates"]}
{"id": "C92", "title": "sgd on randomly drawn examples converges on average", "statement": "sgd with one example drawn uniformly (with replacement) per step from a training set of M examples, the loss being convex towards its minimiser q (strongly, with mu >= 0) and the mean squared example gradient at most A (f - f(q)) + G: every one of the M^n possible training runs succeeds, and averaged over all of them (a) with any schedule of rates lr_t the sum of lr_t (2 - lr_t A) times the mean excess loss plus the mean squared distance to q is at most |x_0 - q|^2 + G sum lr_t^2; (b) with a constant rate, lr mu <= 1 and lr A <= 2, the mean squared distance is at most (1 - lr mu)^n |x_0 - q|^2 + lr G / mu; (c) with rate 2/(mu (t + k)) it is at most max(4 G/mu^2, (k-1)|x_0 - q|^2)/(n + k - 1).", "quantifier": "all training sets, losses, parameter trees, schedules, numbers of steps, and all M^n sequences of drawn examples", "why_tests_cant": "an exact expectation over every random sequence of examples, for every loss and run length", "anchors": ["optax/_src/alias.py:sgd", "optax/_src/transform.py:scale_by_schedule", "optax/_src/update.py:apply_updates"]}
{"id": "C93", "title": "lookahead around sgd converges, and when it stabilises a diverging sgd", "statement": "lookahead(sgd(lr), k, a) with gradients taken at the fast parameters, both copies started at p, never fails; the slow parameters change only at every k-th step, where fast and slow agree. On a convex L-smooth function with lr L <= 1 and 0 <= a <= 1 the loss of the slow parameters never increases and after m periods exceeds f(q) by at most (f(p) - f(q) + |p - q|^2/(2 lr k))/(1 + a m) for every q; on a mu-strongly convex one the squared distance to the minimiser shrinks by 1 - a + a (1 - lr mu)^k per period. On quadratics, for every lr and a, each coordinate is multiplied by exactly 1 - a + a (1 - lr lambda)^k per period, so around an unstable sgd an odd k can converge while an even k always diverges.", "quantifier": "all such functions, parameter trees, learning rates, periods below 2^31, slow step sizes, numbers of steps", "why_tests_cant": "a claim about every function and every run length", "anchors": ["optax/_src/lookahead.py:lookahead", "optax/_src/lookahead.py:_lookahead_update", "optax/_src/alias.py:sgd"]}
{"id": "C94", "title": "Gradient accumulation is large-batch training", "statement": "MultiSteps(opt, k) around any optimiser that does not use params (every element-wise one: sgd, momentum, adam, rmsprop and chains of them), trained in the loop update / apply_updates on micro-batch gradients taken at the current parameters: after m k + r micro-steps the parameters and the wrapped optimiser's state are exactly those of opt after m steps on the mean (or sum) of each k micro-batch gradients, and nothing raises - also in the presence of NaN and infinities, and for gradients that depend on the parameters.", "quantifier": "all such optimisers, gradient functions, parameter trees, k from 1 to 2^31-1, run lengths, positions inside a batch", "why_tests_cant": "a claim about every optimiser, gradient function and run length", "anchors": ["optax/_src/wrappers.py:MultiSteps", "optax/_src/update.py:apply_updates"]}
{"id": "C95", "title": "Every elementary operation is the exact one, rounded once", "statement": "The exact arithmetic in which most numeric properties here are proved and the IEEE-754 arithmetic arrays are computed with agree: for floats of any dtype, sums, differences, products, quotients (except by minus zero), square roots, conversions and literals are the exact results rounded to nearest even; sign changes, absolute values, signs, maxima, minima, floor, rint, integer conversion and all comparisons are exact; infinities and NaN are produced and propagated identically. Where the exact result is representable the float result is equal to it.", "quantifier": "all dtypes and all pairs of floats, including zeros of either sign, subnormals, infinities and NaN", "why_tests_cant": "a claim about every pair of floats of every dtype; it is what makes the exact theorems speak about float runs", "anchors": ["optax/_src/transform.py:scale", "optax/_src/update.py:apply_updates", "optax/_src/numerics.py:safe_norm"]}
{"id": "C96", "title": "Loss scaling", "statement": "Multiplying the loss by c and putting scale(1/c) in front of any optimiser changes nothing: same parameters, states and failures (exact arithmetic, any c <> 0, NaN and infinite gradients included; in IEEE arithmetic bit for bit when c is a power of two and the scaled gradients are exact multiples). Without unscaling, adam absorbs c > 0 in eps -> c eps, eps_root -> c^2 eps_root, rmsprop and adagrad in eps and the initial accumulator times c^2, sgd with any momentum in lr / c: the runs go through the same parameters. radam does not: its first update is -lr times the gradient.", "quantifier": "all optimisers behind scale, gradient functions, parameter trees, constants, hyper-parameters, schedules, run lengths", "why_tests_cant": "a claim about every optimiser, loss, constant and number of steps", "anchors": ["optax/_src/transform.py:scale", "optax/_src/combine.py:chain", "optax/_src/alias.py:adam", "optax/_src/alias.py:rmsprop", "optax/_src/alias.py:adagrad", "optax/_src/alias.py:sgd", "optax/_src/alias.py:radam"]}
{"id": "C97", "title": "Weight decay: L2 regularisation or decoupled", "statement": "add_decayed_weights in front of any optimiser is L2 regularisation: training on grad gives exactly the parameters and states of the optimiser trained on grad + weight_decay * params, in any arithmetic, failures included. Through adam, with no data gradient, the strength of that regularisation only rescales eps; after adam (adamw) every parameter is multiplied by 1 - lr * weight_decay at each step.", "quantifier": "all optimisers, gradient functions, parameter trees, decay strengths, schedules, run lengths, arithmetics", "why_tests_cant": "a claim about every optimiser, loss and number of steps", "anchors": ["optax/_src/transform.py:add_decayed_weights", "optax/_src/combine.py:chain", "optax/_src/alias.py:adamw", "optax/_src/alias.py:adam"]}
{"id": "C98", "title": "Stability of sgd: one example, the starting point, unseen examples", "statement": "sgd (any learning-rate schedule with rates at most 2/L) on convex L-smooth example losses with gradients at most G long: replacing one of the M training examples changes the trained parameters, averaged over the draws of examples, by at most 2 G / M times the sum of the learning rates; with add_decayed_weights(w) in front by at most 2 G / (w M) however long training lasts. Runs that see the same examples from different starting points never get further apart. Any optimiser with such a bound B has, on average over training sets and draws, a gap between the loss on the population and the training loss of at most G B.", "quantifier": "all parameter trees, training sets, replaced examples, schedules, numbers of steps, example draws; for the last part all optimisers", "why_tests_cant": "a claim about averages over every training set and every sequence of drawn examples, for every convex smooth loss and number of steps", "anchors": ["optax/_src/alias.py:sgd", "optax/_src/transform.py:add_decayed_weights", "optax/_src/combine.py:chain", "optax/_src/update.py:apply_updates"]}
{"id": "C99", "title": "Trust ratio and lamb: steps relative to each layer's norm", "statement": "Behind any transformations that propose a finite direction d for every element from its own history, scale_by_trust_ratio() followed by a learning rate turns each layer (leaf) a into a - lr (|a|/|d|) d, or a - lr d when a or d is zero; lamb is such an optimiser with d = Adam's direction + weight_decay * a. Training on finite gradients never fails and stays finite; a non-zero layer changes its norm by a factor within [1-|lr|, 1+|lr|] per step whatever the gradients, so with |lr| < 1 it never vanishes and after n steps its norm is between the products of these factors times the initial norm. A finding: the layer always moves by exactly |lr| times its norm however small the gradients are, so with a constant learning rate it cannot settle at any non-zero value.", "quantifier": "all fronts with a finite closed form, all learning rates and schedules, hyper-parameters, trees, layers, finite parameters, finite gradient sequences of any length", "why_tests_cant": "The bound holds for every sequence of gradients and every number of steps; a test follows a few runs.", "anchors": ["optax/_src/alias.py: lamb", "optax/_src/transform.py: scale_by_trust_ratio, scale_by_adam, add_decayed_weights", "optax/_src/update.py: apply_updates"]}
{"id": "C100", "title": "Differentiating through training gives the derivative of the trained parameters", "statement": "Run the training loop of update and apply_updates under forward-mode differentiation, with any of sgd (with or without momentum), adam, adamw (eps_root > 0), adabelief, adagrad (positive initial accumulator) and rmsprop (eps > 0), or any chain of their parts, and let the learning rate or its schedule, the decay rates, eps, eps_root, the weight decay, the momentum, the initial parameters and the gradients all depend on a number s. After any number of steps every element of the parameters carries its value and exactly its derivative with respect to s. The positivity of eps_root is needed: with adam's default eps_root = 0 the tangent of an element whose gradients have been zero so far is NaN although its update is 0.", "quantifier": "all chains of the listed transformations, all differentiable families of hyper-parameters, initial parameters and gradient functions, all trees, shapes and dtypes, all numbers of steps", "why_tests_cant": "A finite-difference test checks one hyper-parameter at one point after a few steps to a tolerance; exactness through a closed loop of any length needs an induction on the steps with the derivative as part of the invariant.", "anchors": ["optax/_src/alias.py: sgd, adam, adamw, adabelief, adagrad, rmsprop", "optax/_src/transform.py: scale_by_adam, scale_by_belief, scale_by_rms, scale_by_rss, trace, add_decayed_weights, scale_by_schedule", "optax/_src/update.py: apply_updates"]}
{"id": "C101", "title": "keep_params_nonnegative after sgd is projected gradient descent", "statement": "chain(sgd(lr), keep_params_nonnegative) with apply_updates is projected gradient descent on the non-negative vectors: from non-negative parameters every visited point is non-negative; on a convex function with bounded subgradients the average suboptimality against any non-negative vector is at most |x0-q|^2/(2 lr n) + lr G/2; on an L-smooth function with lr <= 1/L each step decreases f by at least |x'-x|^2/(2 lr) and in the convex case f(x_n)-f(q) <= |x0-q|^2/(2 lr n); the loop stops exactly at the points satisfying the first-order optimality conditions of the constrained problem. In the other order the parameters are not kept non-negative.", "quantifier": "every learning rate, every non-negative starting point of any tree shape, every function and gradient computation satisfying the hypotheses, every number of steps", "why_tests_cant": "the guarantee ranges over all functions, starting points and numbers of steps; a test runs one function from one point", "anchors": ["optax/_src/constrain.py:keep_params_nonnegative", "optax/_src/alias.py:sgd", "optax/_src/combine.py:chain", "optax/_src/update.py:apply_updates"]}
{"id": "C102", "title": "clipping is projection, and bounds the influence of corrupted gradients", "statement": "clip_by_global_norm(c) returns the unique nearest gradient of norm at most c and never amplifies a difference between two gradients; clip(c) does so per element; two clips in a chain equal one clip at the smaller bound. Hence replacing any k of the gradients of a run of chain(clip_by_global_norm(c), sgd(lr)) by arbitrary ones moves the final parameters by at most 2 lr c k.", "quantifier": "every tree shape of one dtype, every finite gradients, every bound c > 0, every pair of gradient sequences of any length", "why_tests_cant": "nearest among all points of the ball, and the influence bound is over all possible corruptions of any size", "anchors": ["optax/_src/clipping.py:clip_by_global_norm", "optax/_src/clipping.py:clip", "optax/_src/combine.py:chain", "optax/_src/alias.py:sgd"]}
{"id": "C103", "title": "the learning-rate budget", "statement": "Put zero_nans, clip(c) and a learning rate behind any optimiser built from the library: whatever the gradients (NaN and infinities included), training never fails, parameters stay finite and no element moves between two steps by more than c times the sum of the absolute learning rates in between. So the parameters freeze once the schedule is zero (cosine_decay_schedule with alpha=0 from decay_steps on), converge when the learning rates are summable, and with exponential_decay never get further than c*init/(1-rate^(1/transition_steps)) from the start. adam, adamw and sgd themselves freeze when their schedule reaches zero.", "quantifier": "every optimiser pipeline, every parameter tree, every adversarial gradient function, every schedule and number of steps", "why_tests_cant": "the bound is over all optimisers, all gradients including NaN and Inf chosen adversarially at each step, and unboundedly many steps", "anchors": ["optax/_src/clipping.py:clip", "optax/_src/constrain.py:zero_nans", "optax/_src/alias.py:_scale_by_learning_rate", "optax/_src/transform.py:scale_by_schedule", "optax/_src/schedule.py:exponential_decay", "optax/_src/schedule.py:cosine_decay_schedule", "optax/_src/combine.py:chain"]}
{"id": "C104", "title": "Parameters whose gradient is zero", "statement": "A parameter whose gradient is 0 at every step is left exactly unchanged by sgd, adam, adabelief, adagrad, rmsprop and radam, whatever the other gradients are; adamw multiplies it by 1 - lr*weight_decay at every step; yogi pushes it down at every step. When a gradient becomes 0 and stays 0, sgd without momentum, adagrad and rmsprop stop at once; momentum coasts by exactly b(1-b^k)/(1-b) times the first such step; adam (b1^2 < b2) coasts at most r/(1-r)/sqrt(1-b2^t) times it, r = b1/sqrt(b2); with b1^2 > b2 it may accelerate.", "quantifier": "all parameter trees, all gradient histories (NaN and infinities elsewhere included), all positions, all numbers of steps, all hyperparameters in the stated ranges, fixed or scheduled learning rates", "why_tests_cant": "It concerns every history, every step count and all values at the other positions; a test shows a few steps of one model, and the drift of yogi is 1e-4 per step.", "anchors": ["optax/_src/alias.py:adam", "optax/_src/alias.py:adamw", "optax/_src/alias.py:yogi", "optax/_src/alias.py:sgd", "optax/_src/alias.py:adagrad", "optax/_src/alias.py:rmsprop", "optax/_src/alias.py:radam", "optax/_src/transform.py:scale_by_yogi", "optax/_src/transform.py:scale_by_adam", "optax/_src/transform.py:trace"]}
{"id": "C105", "title": "Target copies track the online parameters", "statement": "A copy of the parameters kept with incremental_update(step_size s), 0 < s <= 1, lags behind parameters moving at most d per step by at most d(1-s)/s plus a part of the initial distance shrinking like (1-s)^n, converges to the same limit whenever the online parameters converge, and its convex loss is at most the same exponential average of the online losses; kept with periodic_update(k) it equals at step n the online parameters of step n - (n mod k). Around any guarded optimiser (zero_nans, clip, bounded learning rate) the lag is at most c A (1-s)/s whatever the gradients.", "quantifier": "all parameter trees, all online trajectories, all step sizes in (0,1], all periods >= 1, all numbers of steps, all optimisers assembled from the library, all gradients", "why_tests_cant": "Ranges over every trajectory and an unbounded number of steps, and convergence is a limit statement.", "anchors": ["optax/_src/update.py:incremental_update", "optax/_src/update.py:periodic_update", "optax/_src/update.py:apply_updates"]}
{"id": "C106", "title": "Softmax cross entropy and cosine similarity in floating point", "statement": "softmax_cross_entropy evaluated in IEEE arithmetic (any dtypes, broadcasting, any accuracy of exp/log, any summation order): for finite logits up to 2^(emax-3) in magnitude (8192 in float16) - not only where exp(logit) is representable - and labels in [0,1] the loss is never NaN and never negative, and with one-hot labels it is finite and equals minus the computed log-probability of the labelled class bit for bit (up to the sign of zero). Two limits: a class masked with the logit -inf (label 0) makes the loss NaN, and cosine_similarity is 0 (distance 1), even between identical vectors, as soon as one element's square overflows the dtype (256 in float16). In every arithmetic each loss is the stated row formula with every operation in the stated dtype.", "quantifier": "all shapes with a broadcastable batch part and n classes, all dtypes, all bit patterns of logits/labels in range, all platforms meeting the stated assumptions on exp, log, sum", "why_tests_cant": "there are 2^16..2^64 bit patterns per logit and rows of any length; overflow and rounding corner cases appear only at extreme magnitudes and depend on the summation order", "anchors": ["optax/_src/loss.py:softmax_cross_entropy", "optax/_src/loss.py:cosine_similarity", "optax/_src/loss.py:cosine_distance", "optax/_src/numerics.py:safe_norm"]}
