(** Generated by tools/genprops.py from P_ieee8.v: property theorems only. *)
From Verif Require Import P_ieee8.
From Flocq Require Import Core.Core IEEE754.BinarySingleNaN.
Open Scope R_scope.
#[local] Existing Instance FlOps.

(** IEEE arithmetic, any shapes and dtypes (with or without targets), any finite positive delta that does not vanish in the dtype: every element of l2_loss and huber_loss is NaN exactly when the error there is NaN, otherwise >= 0; it is +inf for an infinite error; it is non-decreasing in the magnitude of the error (over all pairs of positions, in spite of rounding); and huber_loss equals l2_loss wherever |error| <= delta. *)
Theorem C74_l2_huber_ieee : forall `{L : Libm} (p : tensor) (t : option tensor) (delta : fl) (s : list nat), twf p -> twf_o t -> tfmt p -> err_shape p t = Some s ->
  let D := err_dt p t in fisfinite (fcast D delta) = true -> flt fzero (fcast D delta) = true ->
  exists r h, l2_loss p t = Ok r /\ huber_loss p t delta = Ok h /\ dt r = D /\ shp r = s /\ dt h = D /\ shp h = s /\
    forall o, valid s o -> let e := err_at p t o in
      (fisnan (tget r o) = fisnan e /\ fisnan (tget h o) = fisnan e) /\
      (fisnan e = false -> fle fzero (tget r o) = true /\ fle fzero (tget h o) = true) /\
      (forall b, e = If b -> tget r o = If false /\ tget h o = If false) /\
      (fle (fabs e) (fcast D delta) = true -> feqb (tget h o) (tget r o) = true) /\
      (forall o', valid s o' -> fle (fabs e) (fabs (err_at p t o')) = true -> fle (tget r o) (tget r o') = true /\ fle (tget h o) (tget h o') = true).
Proof. exact @loss_ieee. Qed.
Print Assumptions C74_l2_huber_ieee.

(** IEEE arithmetic: the error between a prediction and a target (promoted exactly) is NaN only if one of them is NaN or both are the same infinity; so on finite predictions and targets the losses are never NaN. *)
Theorem C74_error_nan : forall `{L : Libm} (p t : tensor) o, tfmt p -> tfmt t ->
  (fisnan (err_at p (Some t) o) = true <-> fisnan (bget p o) = true \/ fisnan (bget t o) = true \/ exists s, bget p o = If s /\ bget t o = If s).
Proof. exact @err_nan. Qed.
Print Assumptions C74_error_nan.

(** IEEE arithmetic, any shapes and dtypes, exp and log1p of any accuracy that maps [-inf,0] and [0,1] into [0,1]: for finite logits and labels in [0,1] every element of sigmoid_binary_cross_entropy is finite (never NaN, never overflows even at the largest logit) and >= 0; for the hard labels 1 and 0 it is exactly softplus(-logit) and softplus(logit). *)
Theorem C74_bce_ieee : forall `{L : Libm} (x l : tensor), exp_sane L -> log1p_sane L -> twf x -> twf l -> tfmt x -> tfmt l -> broadcasts_to (shp x) (shp l) ->
  exists r, sigmoid_binary_cross_entropy x l = Ok r /\ dt r = promote (dt l) (dt x) /\ shp r = shp l /\
    forall o, valid (shp l) o -> fisfinite (bget x o) = true -> fle fzero (tget l o) = true -> fle (tget l o) fone = true ->
      fisfinite (tget r o) = true /\ fle fzero (tget r o) = true /\
      (feqb (tget l o) fone = true -> feqb (tget r o) (softplus (dt x) (fneg (bget x o))) = true) /\
      (feqb (tget l o) fzero = true -> feqb (tget r o) (softplus (dt x) (bget x o)) = true).
Proof. exact @bce_ieee. Qed.
Print Assumptions C74_bce_ieee.

(** (finding) an infinite logit of the right sign, whose loss is 0, gives NaN: 0 * inf. *)
Theorem C74_bce_infinite_logit : forall `{L : Libm} (x l : tensor) o, log1p_sane L -> (forall d, l_exp L d (If true) = Zr false) -> twf x -> twf l -> broadcasts_to (shp x) (shp l) -> valid (shp l) o ->
  (bget x o = If false /\ tget l o = Nz 1) \/ (bget x o = If true /\ tget l o = Zr false) ->
  exists r, sigmoid_binary_cross_entropy x l = Ok r /\ tget r o = Na.
Proof. exact @bce_inf. Qed.
Print Assumptions C74_bce_infinite_logit.

Example C74_example :
  let p := mkT F16 [3%nat] [Nz (-3); If true; Nz 65504] in let l := mkT F32 [3%nat] [Nz 1; Nz 1; Zr false] in
  (exists r h, l2_loss (O := FlOps cr_libm) p None = Ok r /\ huber_loss (O := FlOps cr_libm) p None (Nz 1) = Ok h /\
     tget (O := FlOps cr_libm) r [1%nat] = If false /\ tget (O := FlOps cr_libm) h [1%nat] = If false /\
     le_ (tget (O := FlOps cr_libm) h [0%nat]) (tget (O := FlOps cr_libm) h [2%nat]) = true) /\
  (exists b, sigmoid_binary_cross_entropy (O := FlOps cr_libm) p l = Ok b /\ ffin (tget (O := FlOps cr_libm) b [2%nat]) = true /\ le_ (Zr false) (tget (O := FlOps cr_libm) b [2%nat]) = true) /\
  (exists b, sigmoid_binary_cross_entropy (O := FlOps cr_libm) (mkT F16 [1%nat] [If false]) (mkT F16 [1%nat] [Nz 1]) = Ok b /\ tget (O := FlOps cr_libm) b [0%nat] = Na).
Proof. exact @loss_ieee_example. Qed.
