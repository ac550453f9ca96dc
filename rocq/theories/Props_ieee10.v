(** Generated by tools/genprops.py from P_ieee10.v: property theorems only. *)
From Verif Require Import P_ieee10.
From Flocq Require Import Core.Core IEEE754.BinarySingleNaN.
Open Scope R_scope.
#[local] Existing Instance FlOps.

(** softmax_cross_entropy in any arithmetic, any shapes and dtypes: with logits broadcastable to labels, both with n > 0 classes on the last axis, every element is minus the dot product - made in the promoted dtype - of the row of labels with the log_softmax of the row of logits - made in the dtype of the logits: subtract the largest logit, then the logarithm of the sum of the exponentials. *)
Theorem C106_softmax_any_arithmetic : forall `{O : Ops} (x l : tensor) (B B' : list nat) (n : nat), twf x -> twf l -> shp l = B ++ [n] -> shp x = B' ++ [n] -> (0 < n)%nat -> broadcasts_to (shp x) (shp l) ->
  exists r, softmax_cross_entropy x l = Ok r /\ joined l x r B /\ forall o, valid B o -> tget r o = fneg (dot_row (dt l) (dt x) (row l o) (log_softmax_row (dt x) (row x (bidx B' o)))).
Proof. exact @ce_gen. Qed.
Print Assumptions C106_softmax_any_arithmetic.

(** cosine_similarity and cosine_distance in any arithmetic, any shapes and dtypes: every row is divided, in its own dtype, by its norm - the square root of the sum of squares, or epsilon if that is not smaller - and the dot product of the two unit rows is made in the promoted dtype; the distance is 1 minus it. *)
Theorem C106_cosine_any_arithmetic : forall `{O : Ops} (x t : tensor) (eps : F) (B B' : list nat) (n : nat), twf x -> twf t -> shp t = B ++ [n] -> shp x = B' ++ [n] -> broadcasts_to (shp x) (shp t) ->
  exists r r', cosine_similarity x t eps = Ok r /\ joined t x r B /\ cosine_distance x t eps = Ok r' /\ joined t x r' B /\
  forall o, valid B o ->
    tget r o = dot_row (dt t) (dt x) (unit_row (dt t) eps (row t o)) (unit_row (dt x) eps (row x (bidx B' o))) /\
    tget r' o = fsub (promote (dt t) (dt x)) (fcast (promote (dt t) (dt x)) fone) (tget r o).
Proof. exact @cos_gen. Qed.
Print Assumptions C106_cosine_any_arithmetic.

(** softmax_cross_entropy in IEEE arithmetic, any shapes and dtypes, exp and log of any accuracy, sums in any order: wherever the row of logits is finite and at most 2^(emax-3) in magnitude (8192 in float16, 4e37 in bfloat16 and float32) and the labels lie in [0,1], the loss is never NaN and never negative; no exponential overflows, however large the logits; with a one-hot row of labels (no class smoothing) it is finite and is exactly minus the log-probability of the labelled class. *)
Theorem C106_softmax_ieee : forall `{L : Libm} (x l : tensor) (B B' : list nat) (n : nat), exp_sane L -> exp_ends L -> log_sane L -> sum_sane L -> sum_count L -> sum_neg L -> sum_one L ->
  twf x -> twf l -> tfmt x -> tfmt l -> shp l = B ++ [n] -> shp x = B' ++ [n] -> (0 < n)%nat -> INR n <= bpow radix2 (femax (dt x) - 1) -> broadcasts_to (shp x) (shp l) ->
  exists r, softmax_cross_entropy x l = Ok r /\ joined l x r B /\
    forall o, valid B o -> Forall (fun v => fisfinite v = true /\ Rabs (fval v) <= bpow radix2 (femax (dt x) - 3)) (row x (bidx B' o)) ->
      Forall (fun v => fle fzero v = true /\ fle v fone = true) (row l o) ->
      fisnan (tget r o) = false /\ fle fzero (tget r o) = true /\
      forall j y, nth_error (row l o) j = Some (Nz 1) -> (forall i v, nth_error (row l o) i = Some v -> i <> j -> feqb v fzero = true) ->
        nth_error (log_softmax_row (dt x) (row x (bidx B' o))) j = Some y -> fisfinite (tget r o) = true /\ fval (tget r o) = - fval y.
Proof. exact @ce_ieee. Qed.
Print Assumptions C106_softmax_ieee.

(** (finding) masking a class by the logit -inf, whose label is 0, makes the whole loss NaN, in every dtype and whatever the other logits and labels are: 0 * -inf. (Platform assumption: a sum with a NaN is NaN.) *)
Theorem C106_masked_logit_nan : forall `{L : Libm} (x l : tensor) (B B' : list nat) (n : nat) o j, sum_nan L -> twf x -> twf l -> shp l = B ++ [n] -> shp x = B' ++ [n] -> (0 < n)%nat -> broadcasts_to (shp x) (shp l) ->
  valid B o -> nth_error (row x (bidx B' o)) j = Some (If true) -> (exists s, nth_error (row l o) j = Some (Zr s)) ->
  exists r, softmax_cross_entropy x l = Ok r /\ tget r o = Na.
Proof. exact @ce_masked. Qed.
Print Assumptions C106_masked_logit_nan.

(** (finding) if the square of a single element of a row overflows its dtype - |x| >= 256 in float16, 1.8e19 in float32 and bfloat16 - its norm is infinite and cosine_similarity is 0 (so cosine_distance is 1), whatever the rows are, even for identical rows, for any finite epsilon. *)
Theorem C106_cosine_overflow : forall `{L : Libm} (x t : tensor) (eps : fl) (B B' : list nat) (n : nat) o j v, sum_sane L -> sum_one L -> twf x -> twf t -> tfmt x -> tfmt t -> shp t = B ++ [n] -> shp x = B' ++ [n] -> broadcasts_to (shp x) (shp t) ->
  valid B o -> Forall (fun v => fisfinite v = true) (row t o) -> fisfinite (fcast (dt t) eps) = true -> Forall (fun u => fisfinite u = true) (unit_row (dt x) eps (row x (bidx B' o))) ->
  nth_error (row t o) j = Some v -> fmul (dt t) v v = If false ->
  exists r r', cosine_similarity x t eps = Ok r /\ cosine_distance x t eps = Ok r' /\ feqb (tget r o) fzero = true /\ feqb (tget r' o) fone = true.
Proof. exact @cos_overflow. Qed.
Print Assumptions C106_cosine_overflow.

Example C106_example :
  (exists r, softmax_cross_entropy (O := FlOps cr_libm) (mkT F16 [2%nat] [Nz 8192; Nz (-8192)]) (mkT F32 [2%nat] [Zr false; Nz 1]) = Ok r /\ ffin (tget (O := FlOps cr_libm) r []) = true /\ le_ (Zr false) (tget (O := FlOps cr_libm) r []) = true) /\
  (exists r, softmax_cross_entropy (O := FlOps cr_libm) (mkT F32 [2%nat] [Nz 1; If true]) (mkT F32 [2%nat] [Nz 1; Zr false]) = Ok r /\ tget (O := FlOps cr_libm) r [] = Na) /\
  (exists r r', cosine_similarity (O := FlOps cr_libm) (mkT F16 [1%nat] [Nz 256]) (mkT F16 [1%nat] [Nz 256]) (Zr false) = Ok r /\ cosine_distance (O := FlOps cr_libm) (mkT F16 [1%nat] [Nz 256]) (mkT F16 [1%nat] [Nz 256]) (Zr false) = Ok r' /\
     eq_ (tget (O := FlOps cr_libm) r []) (Zr false) = true /\ eq_ (tget (O := FlOps cr_libm) r' []) (Nz 1) = true).
Proof. exact @ce_ieee_example. Qed.
