# A Rocq model of deepmind/optax

(The first version of this file was committed before the proofs; it is kept current as the model grows.)

## 1. The model

The library's logic under `/repo/optax/_src`, function by function: gradient transformations as
`init`/`update` pairs on pytrees of arrays, wrappers, schedules, losses, linear algebra,
second-order helpers, gradient estimators, control variates and the aliases.
Every definition cites the file and lines it models; simplifications are stated in the comment.
Python exceptions are values (`result A := Ok a | Err e`), so "raises" is a theorem too.

| layer | file | content |
|---|---|---|
| exceptions, lists | `Prelude.v` | `result`, monadic maps |
| scalars | `Scalar.v` | class `Ops`: a carrier `F` and the float operations jax.numpy calls, indexed by dtype (float16, bfloat16, float32, float64); platform flag `x64`; PRNG oracle |
| exact arithmetic | `XR.v` | instance 1: extended reals `Fin r / PInf / NInf / NaN` with IEEE special-value rules and no rounding |
| IEEE arithmetic | `Fl.v`, `FlFacts.v` | instance 2: signed zeros, infinities, NaN, subnormals, overflow, round-to-nearest-even in each dtype; proved equal to Flocq's operations on bit patterns |
| dual numbers | `Dual.v` | instance 3: forward-mode differentiation with jax's JVP rules |
| arrays | `Tensor.v`, `Bcast.v`, `Rows.v`, `TMat.v`, `RMat.v` | dtype, shape, row-major data, promotion, broadcasting, axis reductions, matrices |
| pytrees | `Tree.v`, `TreeMore.v` | leaves and labelled nodes; `tree_map`, `tree_multimap`, flatten/unflatten |
| states | `State.v` | optimiser states, transformations, histories, `lax.cond` |
| code | `M_*.v` | the code, one file per module of `optax/_src` (generic over `Ops`) |
| scalar machines | `Machine.v`, `P_machines.v` | refinement of element-wise transformations to one-element step functions, for every `Ops` |
| specifications | `Spec.v`, head of `P_*.v` | the definitions property statements use |
| proofs | `P_*.v` | lemmas; property lemmas are tagged `(*@ NAME : English *)` |
| properties | `Props_*.v` | generated from the tags by `tools/genprops.py`: the property theorems, an `Example` that meets their hypotheses, and `Print Assumptions` |

Because the code is written once, generically, the same definitions are the subject of theorems in
exact arithmetic, in IEEE arithmetic and for derivatives. Structural theorems (chain, masked, flatten,
apply_if_finite, MultiSteps, lookahead, maybe_update, ...) are proved for *every* instance of `Ops`.

How statements stay honest:

* exact-arithmetic theorems conclude `= Fin (...)`, an equality that is false when the code would have
  produced NaN or Inf, so no theorem rests on Coq's totalised division, root or logarithm;
* element-wise transformations are refined to *scalar machines*: a tree of states is literally a tree of
  arrays of machine states, so a property of the machine for every history is a property of every element
  of every tree for every history (`emits` in exact arithmetic, `femits` in IEEE arithmetic);
* wrapper theorems come in two parts: (a) for any inner transformation, if the run succeeds it equals a
  reference execution; (b) totality for inner transformations that do not raise on well-shaped input;
* IEEE theorems quantify over an arbitrary math library `Libm` with only the stated sanity hypotheses
  (`rsqrt_sane`, `pow_sane`, `exp_sane`, `log1p_sane`, `sum_sane`, ...); `cr_libm` (correctly rounded) is
  proved to satisfy each of them, and the examples run on it.

## 2. Properties

How each is modelled and proved (all are proved; `MANIFEST.json` lists the theorems).

| property | method |
|---|---|
| C01, C65 | integer model with int32/int64 wrap; induction on the number of increments (saturation), and the wrap of every counter that is not saturated |
| C02, C67 | value in exact arithmetic; derivative through the dual-number instance |
| C03 | generic: refinement of `chain` to recursive sequential composition, associativity, state layout |
| C04, C08, C10, C12-C20, C22, C23, C26, C66 | scalar machine + closed form by induction over the history |
| C05, C06, C24, C27, C52 | per-leaf/global reductions; Cauchy-Schwarz style real lemmas |
| C07 | exact arithmetic, and IEEE for all bit patterns |
| C09, C11 | generic; induction on steps |
| C21 | real analysis of the rectifier along the whole history |
| C25, C38 | key discipline for an arbitrary splitting function; distinctness under `ideal_split`; formula for an arbitrary normal sampler |
| C28 | invariant over history: the minimum over axes dominates the running sum |
| C29 | generic round-trip; transparency for all machines |
| C30-C36 | generic state machines against a specification on histories |
| C37 | triangle inequality over per-example clipped sums: sensitivity of the aggregate |
| C39-C46 | schedules over every int count; C46 a state machine over interleavings |
| C47-C51 | losses element by element with broadcasting; convexity, Gibbs' inequality, Cauchy-Schwarz |
| C53, C54 | the loops with explicit fuel = num_iters; matrix algebra over real matrices; convergence of the coupled Newton iteration by moments of symmetric matrices, without a spectral theorem |
| C55 | Hessian-vector products through dual numbers over an oracle for jax.grad |
| C56 | index arithmetic of scatters and tiles |
| C57, C58, C68 | algebra over derivative/sampling oracles; estimators differentiate the user's function on dual numbers |
| C59-C62 | composition of the above through `chain` |
| C63, C64 | error theorems; invariance of state and update signatures |
| C69-C77 | IEEE: order lemmas on rounded operations, Flocq error bounds, and bit-level evaluation by the kernel for the specific counterexamples |
| C78 | telescoping over the closed form of the parameter trajectory, coordinate by coordinate; the objective is an arbitrary function of the flattened parameters with (sub)gradient or smoothness inequalities as hypotheses, met by a concrete quadratic |
| C79 | Gauss.v: improper integrals, differentiation under the integral sign by exponential domination, Gaussian integral, Stein identities and Weibull/Maxwell decompositions; combined with the closed forms of C57 and C68 |
| C80 | the closed forms of C02–C14, C31, C59, C60 (every output element is a function of the element's gradient history) compared as functions; equality of whole output trees from equality at every position; MultiSteps by a refinement to a scalar machine that composes with the wrapped optimiser's (P_multi2.v) |
| C81 | GaussDP.v: iterated expectation over T blocks of n normals, translation of the integral gives the likelihood ratio of an adaptively shifted Gaussian, Renyi-moment bound; the released values are shown to be (sum of clipped examples + C m z)/B (C37/C38), so exchanging the runs is an adaptive shift of the noise of norm at most 2/m per call. Randomness enters as a family of generators, one for every noise vector (they exist: C81_generators); the test function must have an iterated improper Riemann expectation (bounded Lipschitz ones do: C81_expectations); exact arithmetic. P_dpsgd.v: the dpsgd training loop is shown to publish a function of the released aggregates (momentum and learning rate are post-processing, C59/C62), so the guarantee carries over to the published parameters |
| C82 | P_momentum.v: the sgd loop is reduced to the two-sequence recursion v' = b v + g, x' = x - lr u coordinate by coordinate (C08, C59); convexity via the potential of the auxiliary sequence x - lr b/(1-b) v, smoothness via the descent lemma on the same sequence. Exact arithmetic |
| C83 | P_diverge.v: the construction of Reddi, Kale and Kumar (2018) without projection, for every b1^2 < b2: gradient N once per epoch of N steps and -1 otherwise; per-epoch sum of the closed form of C17 is bounded by a geometric series minus a linear term. Exact arithmetic; the saturating step counter is covered (bias corrections are only used through 1-b <= 1-b^t <= 1) |
| C84 | P_diverge.v: uniform version of the step bound of C18 and a contraction argument for the decoupled weight decay (C60) |
| C85 | P_accel.v: a potential function argument (loss gap plus m/2 times the squared distance of Nesterov's auxiliary point) on the closed forms of sgd (C59), exact arithmetic |
| C86 | P_accel.v: the function of Lessard, Recht and Packard; the deviation from the three-cycle obeys a linear recurrence with both roots -2/3, and an invariant keeps the iterates in the right linear pieces |
| C87 | P_pipe.v: an inductive definition of assembled optimisers; each constructor is shown to have a state invariant that fixes the state's signature (`safe`), by induction on the nesting; checkpoints: the arrays of a state in tree order and putting arrays into a structure |
| C88 | `P_guard.v`: the closed training loop `fit` in IEEE arithmetic; each stage of the chain maps a range of elements to a range (`maps`), and once |x| >= 2^(p+2) * update rounding absorbs the update, which bounds the parameters for ever. Platform assumptions are explicit (`pow_sane`, `sum_sane`, `sum_nan`) and met by `cr_libm`. C07_formats pins down the four dtypes. |
| C89 | `P_station.v`: the loop `minimise` of `P_regret.v` in coordinates, summed over the run; the accumulated squares A of one coordinate satisfy sum g^2/sqrt(A) >= sqrt(A_n) - c and sum g^2/A <= ln(A_n/c^2), and ln is below every line. rmsprop: the root is >= sqrt eps (Jensen, also when centered). Non-convex example `bowl`. |
| C90 | `P_station.v`: <g, D mhat> >= 1/2 <g, D g> - 1/2 <g - mhat, D (g - mhat)>; Jensen for the bias-corrected average, Lipschitz gradients, `adam_max` for the speed, second moment of the truncated geometric weights. Below 2^31 steps (the count saturates there). |
| C91 | `P_relaxed.v`: the loop `minimise` with a front stage; clip_by_global_norm scales the gradient by min(1, c/|g|), so the step is in the radius where the descent inequality holds, and (L0 + L1|g|) lr min(|g|,c)^2 <= min(|g|,c)|g|. The x^4 example meets the hypotheses with L0 = 22, L1 = 6, r = 1. |
| C92 | `P_sample.v`: the training run for a fixed sequence of examples is the loop `fit` (C87); `draws M n` enumerates all M^n sequences exactly once, expectation is the average over that list (no measure theory needed: the sample space is finite). One step in expectation by `average_draws_S`, then induction over n. |
| C93 | `P_look2.v`: one call of lookahead for any fast optimiser (`look_step`), then the closed loop `fit` around sgd in coordinates; a period is k gradient steps from the slow parameters followed by a convex combination (`cycle`); convexity of f and of the squared distance, telescoping over periods. |
| C94 | `P_batch.v`: the closed loops `fit (multi_steps opt k) grads` and `fit opt G` in lock-step, `G` characterised by the specification `block_value` of C31 (exact mean: C31_mean); adding the emitted zeros leaves the parameters unchanged. Exact arithmetic. |
| C95 | `P_agree.v`: an abstraction `exact : fl -> XR` and a specification `rounds` (Flocq's `round`, overflow rule, special values); one lemma per operation of the class `Ops`, over every dtype; the special values of pow/exp/log/cos/rsqrt, which `Fl.v` leaves to the libm, are stated as IEEE's table. |
| C96 | `P_front.v`: a stateless first stage of a chain is moved into the gradient function of the closed loop `fit`, for any `Ops` (equality of results, errors included); exact and IEEE instances of (1/c)(c g) = g; the hyper-parameter laws from the closed forms of C59/C60 and the loop lemma `minimise_vec`. |
| C97 | `P_front.v`: the same lemma for add_decayed_weights; Adam's law of C96 with c = weight_decay; adamw's closed form of C60 along the loop. |
| C98 | `P_stable.v`: gradients of convex L-smooth functions are co-coercive, so a step of sgd is non-expansive (a contraction by 1 - lr w with weight decay); coupling of the two runs on the same draws, averaged over `draws M n` (C92); the gap by exchanging the i-th example with a fresh one (a permutation of training sets). Example: Huber losses. |
| C99 | P_lamb.v: the training loop as `trains` of the chain on its own history of calls (total_loop), trust_spec (C24) for the trust stage, closed form of the front; triangle inequality and induction for the norms. |
| C100 | Dual numbers (`Dual.v`, jax's jvp rules) against exact reals. `carries_fun x f`: x has f's value and derivative at 0. Every elementwise machine of `P_machines.v` is generic in the arithmetic, so it is run at both instances; `simulates` is the relation between the two states, `diff_machine`/`diff_chain`/`diff_fit` lift it to trees, chains and the training loop by induction on the steps. Families are defined on a neighbourhood of s = 0 only, so decay rates may vary. yogi (sign), radam and the norm-based parts are outside. |
| C101 | P_proj.v: the chain's output per coordinate from the element machines (max(0, x + d) - x), the closed loop by induction on the steps (minimise_vec_q: updates that depend on the parameters), then the projection inequalities coordinate by coordinate and telescoping. |
| C102 | P_clip2.v: the scaling factor of clip_by_global_norm (clipped_spec) gives the variational inequality of the projection onto the ball; non-expansiveness from it and Cauchy-Schwarz; composition by comparing factors; two training runs compared by induction on the steps. |
| C103 | P_budget.v: the closed loop fit with invariant (state of the inner optimiser safe as in C87, counter of the schedule at the step number), one step moves an element by lr(count) times something of size at most c; telescoping; completeness of R for convergence; geometric sum for exponential_decay. |
| C104 | closed forms of the aliases (C59, C60) turned into the path of one element through the loop update/apply_updates; weighted sums of a history that ends in zeros; denominators compared through sqrt. |
| C105 | one-step recurrences of the copies (C10, C11) solved by induction; the end-to-end bound composes them with C103. |
| C106 | IEEE model (Fl.v) of the losses; generic row formulas ce_gen, cos_gen proved for every Ops; then sign/finite analysis of each rounded operation; examples for float16 with correctly rounded platform |

## 3. What is modelled, what is not

Modelled: everything public in `optax/_src` except the items below.

Simplifications and omissions:

* jit/pmap/XLA execution, compilation and performance; only float leaves (integer gradient leaves are not modelled);
  weak types beyond "a Python scalar takes the array's dtype" and "a Python float with an int32 count is computed in the
  default float dtype"; the `precision` flag of einsum/matmul.
* IEEE instance: no flushing of subnormals, no FMA fusion or reassociation of element-wise code, one NaN; the sign of
  `maximum(0, -0)` is fixed although XLA leaves it open (no theorem depends on it). Sums, pow, rsqrt, exp, log, log1p,
  cos are oracles.
* Losses and linear algebra: `jnp.log2(p)` is log(p)/log(2); `p` is a positive int, `num_iters` an int32;
  the random start vector of power_iteration is an oracle; `jnp.pi` is the real pi in exact arithmetic.
* Automatic differentiation: dual numbers with jax's JVP rules (custom JVP of logaddexp equals the computed one on finite
  values; symbolic zeros are computed zeros); `jax.grad`/`jacrev` are modelled by the forward Jacobian.
* Estimators: the user's function returns a scalar of its argument's dtype; Weibull, Maxwell, uniform and normal
  draws are oracles. Control variates: `jax.grad`/`jax.hessian` inside `control_delta_method` are oracles.
  C57, C58 and C68 are identities that hold for every draw. C79 is about expectations: the key is replaced by a family of
  keys whose draws run over all reals, the laws are given by their densities (an assumption about jax.random: that its
  draws follow them), expectations are improper Riemann integrals (Coquelicot), one coordinate at a time with the other
  draws held fixed; averaging over those as well (Fubini) is not formalised.
* Second order: `jax.grad` is an oracle on dual trees; `v` has rank 1.
* `join_schedules` of an empty list, `periodic_update` with period 0 and iterating a dict in
  `masked` are outside the model (stated at the definitions).
* Wrappers: the inner transformation of `flatten` returns one vector.

## 4. Findings

Places where the code does something its documentation or a user would not expect. Each is a theorem
(a characterisation, valid for every instance in its scope), not an example.

* ema(debias=False) emits the raw updates, not the average (C13). yogi squares the signed square again (C20).
  belief uses the previous first moment (C19). rms with eps=0 gives NaN on zero gradients (C15).
* apply_every keeps a NaN forever: `0 * NaN` (C26). keep_params_nonnegative's docstring claim fails when p+u > 0 (C07).
  apply_updates broadcasts and changes shapes (C09). `chain()` raises (C03).
* clip_by_global_norm(0) on zero gradients is NaN; mixed dtypes are promoted (C05). sm3 raises IndexError on rank-0 leaves and
  promotes bfloat16 (C28). flatten promotes mixed dtypes and raises on a leafless tree (C29).
* apply_if_finite keeps accepting non-finite updates once it gave up (C30). MultiSteps drops params (C32). masked tests the
  truth value of params (C33). lookahead passes the pair as params; its reset keeps NaN, turns bools into int32 (C36).
* DP aggregation raises IndexError on a rank-0 first leaf or empty tree (C38). inject_hyperparams' first update uses f(1) (C46).
* polynomial power 0 never reaches end_value (C39); piecewise_constant's factor applies at boundary <= step (C40);
  piecewise_interpolate with boundary 0 is NaN (C43); onecycle with int(pct_start*steps)=0 is NaN (C44);
  warmup_cosine with peak 0 raises ZeroDivisionError (C45).
* smooth_labels raises on rank 0 / empty axes (C48); logits without classes raise (C50); logits whose class axis has size 1 broadcast against n-class labels and the loss is 0 whatever the values (C50_one_logit_class); radam computes 2*count in 32-bit integers, which wraps from step 2^30 on, so the rectification factor is then >= 1 (C21_radam_beyond_2_30); radam(b2=1) raises ZeroDivisionError when it is built, before any gradient (C63_radam_b2); cosine similarity of a zero row with eps 0 is NaN (C51).
* power_iteration on a kernel vector returns a NaN vector with value 0 (C53). matrix_inverse_pth_root with p=3 iterates the 4th power;
  its reported error belongs to the last iterate although the previous one is returned; for p=4 it gives up at the first step on a 4x4 matrix
  of condition number 19 and returns a multiple of the identity; the 1x1 result is promoted to float32 (C54).
* rmsprop applies the learning rate inside the momentum (C60); fromage keeps ratio 1 on zero leaves (C61).
* safe_norm with a negative min_norm has a NaN gradient at 0 (C02). set_diags broadcasts one value to every diagonal (C56).
* moving_avg_baseline debiases twice (C58). hessian_diag raises TypeError on a non-default dtype; hvp returns a pytree (C55).
* int64 counters are int32 without x64 and wrap (C65).
* IEEE: an overflowing square freezes an element of rms/adam forever (C70); eps=1e-8 is 0 in float16 so Adam gives NaN on
  zero gradients, and b2=0.999 is 1 in bfloat16 so nu never decays (C71); linear_schedule(1e-8, 1.0) starts at 0 (C72); updates
  below half an ulp are lost forever (C73); the cross-entropy of an infinite logit of the right sign is NaN (C74);
  clip_by_global_norm zeroes the whole update when one square overflows (C75); scale_by_stddev is NaN at step 136 for the constant
  gradient 11 in float32 (C76).
* zero_nans in front of clip_by_global_norm does not protect against an infinite gradient (it becomes NaN); the other order does (C88).
* Lookahead around an unstable sgd (|1 - lr lambda| > 1) can converge for an odd period and never does for an even one (C93_quadratic).
* L2 regularisation put before adam: its strength only rescales eps, so with a small eps it hardly matters (C97_adam_l2); decoupled decay (adamw) is geometric (C97_adamw_decay).
* radam's first steps are not normalised: unlike adam's they scale with the loss, whatever eps (C96_radam_not_invariant).
* lamb with a learning rate of constant size l moves every non-zero layer by exactly l times its norm however small the gradients are, so it cannot settle at a non-zero value (C99_cannot_settle).
* adam and adamw with the default eps_root = 0: differentiating through an update gives NaN for every element whose gradients have all been zero so far, although the update is 0; with eps_root > 0 the derivative is exact (C100_eps_root, C100_optimisers). The documentation of `eps_root` says so.
* keep_params_nonnegative put before the optimiser (chain(keep_params_nonnegative, sgd)) does not keep the parameters non-negative: the clamp then sees the raw gradient (C101_order).
* exponential_decay behind a clipped update limits the distance training can ever cover to c * init / (1 - rate^(1/transition_steps)) per element, however long it runs (C103_exponential); a schedule that reaches 0 freezes the parameters for ever (C103_freeze).
* yogi moves parameters whose gradient is always 0: its first moment starts at initial_accumulator_value (1e-6), not 0, so every unused parameter strictly decreases at every step (C104_yogi_drifts). Momentum and adam go on moving a parameter after its gradient has vanished (C104_momentum_coasts, C104_adam_coasts); adam with b1^2 > b2 may even accelerate it without bound as eps -> 0 (C104_adam_runaway).
* softmax_cross_entropy: masking a class with the logit -inf (label 0) gives NaN: 0 * -inf (C106_masked_logit_nan);
  cosine_similarity is 0 even between identical vectors once one element's square overflows the dtype (C106_cosine_overflow).
* scale_by_trust_ratio: once the square of one parameter overflows the dtype (256 in float16), the whole leaf's update becomes inf/NaN; once
  the square of one update element overflows, the whole leaf's update becomes 0 (C24_overflow_ieee).
* adam with any constant b1^2 < b2 (the defaults too) walks away from the minimum for ever on some finite training set with linear losses (C83).
* sgd with heavy-ball momentum, tuned optimally for quadratics, cycles for ever on a strongly convex smooth function (C86).

## 5. Trusted base

* Coq 8.16.1's kernel (including `vm_compute` for the bit-level counterexamples).
* The axioms printed by `Print Assumptions` under each theorem of `Props_*.v`; `ASSUMPTIONS.md` lists them per theorem. They are the standard
  library's `ClassicalDedekindReals.sig_not_dec`, `ClassicalDedekindReals.sig_forall_dec`, `functional_extensionality_dep` (the real
  numbers), and `Classical_Prop.classic` (through Flocq and Coquelicot lemmas). Many structural theorems are closed under the global context.
  No axioms, parameters, admitted proofs, module types or functors of our own; no kernel check is switched off.
* The reading of the code: that `M_*.v` say what the Python does. `tools/fixcites.py` checks that every cited line range is
  the range of the named Python function.
* `seeded/LOG.jsonl`: the model mutated as realistic bugs would change it, with the theorems that fail.
