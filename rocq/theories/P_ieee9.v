(** IEEE-754: the rounding error of momentum does not accumulate. *)
From Verif Require Export P_ieee8.
From Coq Require Import Psatz Qreals Bool.
From Flocq Require Import Core.Core IEEE754.BinarySingleNaN.
Open Scope R_scope.
#[local] Existing Instance FlOps.
(*@header
From Flocq Require Import Core.Core IEEE754.BinarySingleNaN.
Open Scope R_scope.
#[local] Existing Instance FlOps.
*)
Local Notation fe d := (SpecFloat.fexp (fprec d) (femax d)).

(** Rounding a number of magnitude at most 2^k moves it by at most half an ulp of that binade. *)
Lemma rnd_err_abs d k x : (SpecFloat.emin (fprec d) (femax d) + fprec d <= k)%Z -> Rabs x <= bpow radix2 k -> Rabs (rnd d x - x) <= / 2 * bpow radix2 (k - fprec d).
Proof.
  intros Hk Hx. destruct (Req_dec x 0) as [->|Nx]; [rewrite rnd_0, Rminus_0_r, Rabs_R0; pose proof (bpow_gt_0 radix2 (k - fprec d)); lra|]. destruct (Req_dec (Rabs x) (bpow radix2 k)) as [E|E].
  - rewrite rnd_id; [replace (x - x) with 0 by lra; rewrite Rabs_R0; pose proof (bpow_gt_0 radix2 (k - fprec d)); lra|].
    assert (F : fmt d (bpow radix2 k)) by (apply fmt_bpow; pose proof (fprec_gt d) as P; unfold Prec_gt_0 in P; lia). unfold Rabs in E. destruct (Rcase_abs x); [|now rewrite E]. replace x with (- bpow radix2 k) by lra. now apply fmt_opp.
  - eapply Rle_trans; [apply (error_le_half_ulp radix2 (fe d) (fun z => negb (Z.even z)) x)|]. apply Rmult_le_compat_l; [lra|].
    rewrite ulp_neq_0 by exact Nx. apply bpow_le. unfold cexp. assert (M : (mag radix2 x <= k)%Z) by (apply mag_le_bpow; [exact Nx|lra]). unfold SpecFloat.fexp. lia.
Qed.
(** One step a + c*y in floating point: it stays in [-2^k, 2^k] and is within 2^(k-p) of the exact value. *)
Lemma leaky_step d k (a c y : fl) : (0 <= k)%Z -> (k < femax d)%Z -> ffin a = true -> ffin c = true -> in_format d c -> 0 <= fval c -> fval c < 1 ->
  Rabs (fval a) <= (1 - fval c) * bpow radix2 k -> ffin y = true -> Rabs (fval y) <= bpow radix2 k ->
  let z := add_ (fprec d) (femax d) a (mul_ (fprec d) (femax d) c y) in
  ffin z = true /\ Rabs (fval z) <= bpow radix2 k /\ Rabs (fval z - (fval a + fval c * fval y)) <= bpow radix2 (k - fprec d).
Proof.
  intros K0 K1 Fa Fc Ic C0 C1 Ha Fy Hy. cbn zeta. pose proof (bpow_gt_0 radix2 k) as Pk.
  assert (Ek : (SpecFloat.emin (fprec d) (femax d) + fprec d <= k)%Z) by (destruct d; cbn in *; lia).
  assert (Htop : bpow radix2 k < top d) by now apply bpow_lt.
  assert (Hcy : Rabs (fval c * fval y) <= fval c * bpow radix2 k) by (rewrite Rabs_mult, (Rabs_pos_eq (fval c)) by lra; apply Rmult_le_compat_l; lra).
  assert (Hck : fval c * bpow radix2 k <= bpow radix2 k) by nra.
  rewrite mul_fin by assumption. set (s := xorb _ _).
  destruct (rto_abs_le d s (fval c * fval y) (fval c * bpow radix2 k)) as (M1 & M2); [apply mul_bpow; [now apply fin_fmt|exact K0]|exact Hcy|lra|].
  assert (M3 : Rabs (fval (rto d s (fval c * fval y)) - fval c * fval y) <= / 2 * bpow radix2 (k - fprec d)).
  { destruct (rto_cases d s (fval c * fval y)) as [(_ & E)|(_ & E)]; rewrite E in *; [rewrite fmk_val; apply rnd_err_abs; [exact Ek|lra]|discriminate]. }
  set (z := rto d s _) in *. clearbody z. rewrite add_fin by assumption. set (t := if Req_bool _ _ then _ else _).
  assert (Hsum : Rabs (fval a + fval z) <= bpow radix2 k) by (eapply Rle_trans; [apply Rabs_triang|]; nra).
  destruct (rto_abs_le d t (fval a + fval z) (bpow radix2 k)) as (A1 & A2); [apply fmt_bpow; pose proof (fprec_gt d) as P; unfold Prec_gt_0 in P; lia|exact Hsum|exact Htop|].
  split; [exact A1|]. split; [exact A2|].
  assert (A3 : Rabs (fval (rto d t (fval a + fval z)) - (fval a + fval z)) <= / 2 * bpow radix2 (k - fprec d)).
  { destruct (rto_cases d t (fval a + fval z)) as [(_ & E)|(_ & E)]; rewrite E in *; [rewrite fmk_val; now apply rnd_err_abs|discriminate]. }
  replace (fval (rto d t (fval a + fval z)) - (fval a + fval c * fval y)) with ((fval (rto d t (fval a + fval z)) - (fval a + fval z)) + (fval z - fval c * fval y)) by lra.
  eapply Rle_trans; [apply Rabs_triang|]. lra.
Qed.
Lemma wsum_S b (g : nat -> R) n : sum_f_R0 (fun i => b ^ (S n - i) * g i) (S n) = g (S n) + b * sum_f_R0 (fun i => b ^ (n - i) * g i) n.
Proof.
  cbn [sum_f_R0]. rewrite Nat.sub_diag. cbn [pow]. rewrite scal_sum, Rmult_1_l, Rplus_comm. f_equal. apply sum_eq. intros i Hi. replace (S n - i)%nat with (S (n - i)) by lia. cbn [pow]. lra.
Qed.
(** The recurrence over a whole history. *)
Lemma leaky_run `{L : Libm} (decay : fl) d k x (g q : nat -> fl) n nv : (0 <= k)%Z -> (k < femax d)%Z -> let c := cast_ d decay in ffin c = true -> 0 <= fval c -> fval c < 1 ->
  (forall i, (i <= n)%nat -> ffin (g i) = true /\ Rabs (fval (g i)) <= (1 - fval c) * bpow radix2 k) ->
  let t := @mst (FlOps L) (@m_trace (FlOps L) decay nv) d x g q (S n) in
  ffin t = true /\ Rabs (fval t) <= bpow radix2 k /\ Rabs (fval t - sum_f_R0 (fun i => fval c ^ (n - i) * fval (g i)) n) <= bpow radix2 (k - fprec d) / (1 - fval c).
Proof.
  intros K0 K1 c Fc C0 C1. pose proof (bpow_gt_0 radix2 (k - fprec d)) as Pu. assert (Ic : in_format d c) by apply cast_format.
  assert (Q : bpow radix2 (k - fprec d) <= bpow radix2 (k - fprec d) / (1 - fval c)).
  { apply Rmult_le_reg_r with (1 - fval c); [lra|]. unfold Rdiv. rewrite Rmult_assoc, Rinv_l by lra. nra. }
  induction n as [|n IH]; intros Hg; cbn zeta.
  - destruct (Hg 0%nat (le_n _)) as (F0 & H0). pose proof (bpow_gt_0 radix2 k).
    destruct (leaky_step d k (g 0%nat) c (Zr false) K0 K1 F0 Fc Ic C0 C1 H0 eq_refl ltac:(cbn; rewrite Rabs_R0; lra)) as (A & B & C).
    cbn [mst m_step m_trace snd m_init]. rewrite fl0. cbn [fadd fmul fcast cast_ FlOps] in *. fold c. split; [exact A|]. split; [exact B|]. cbn [sum_f_R0 Nat.sub pow]. cbn [fval] in C. rewrite Rmult_0_r, Rplus_0_r in C. rewrite Rmult_1_l. lra.
  - destruct IH as (IA & IB & IC); [intros i Hi; apply Hg; lia|]. cbn zeta in IA, IB, IC. destruct (Hg (S n) (le_n _)) as (F0 & H0).
    change (@mst (FlOps L) (@m_trace (FlOps L) decay nv) d x g q (S (S n))) with (add_ (fprec d) (femax d) (g (S n)) (mul_ (fprec d) (femax d) c (@mst (FlOps L) (@m_trace (FlOps L) decay nv) d x g q (S n)))).
    set (t := @mst (FlOps L) (@m_trace (FlOps L) decay nv) d x g q (S n)) in *. change (@mE (FlOps L) (@m_trace (FlOps L) decay nv)) with fl in t. clearbody t.
    destruct (leaky_step d k (g (S n)) c t K0 K1 F0 Fc Ic C0 C1 H0 IA IB) as (A & B & C). split; [exact A|]. split; [exact B|]. rewrite wsum_S.
    set (z := add_ _ _ _ _) in *. clearbody z. set (S0 := sum_f_R0 _ n) in *. clearbody S0.
    replace (fval z - (fval (g (S n)) + fval c * S0)) with ((fval z - (fval (g (S n)) + fval c * fval t)) + fval c * (fval t - S0)) by lra.
    eapply Rle_trans; [apply Rabs_triang|]. rewrite Rabs_mult, (Rabs_pos_eq (fval c)) by lra.
    assert (D : bpow radix2 (k - fprec d) / (1 - fval c) = bpow radix2 (k - fprec d) + fval c * (bpow radix2 (k - fprec d) / (1 - fval c))) by (field; lra). rewrite D. nra.
Qed.

(*@ C77_momentum_error_uniform : IEEE arithmetic of any dtype with p bits of precision: if all gradients so far satisfied |g| <= (1-decay)*2^k (0 <= k < emax), then every output of trace (momentum), nesterov or not, is finite, at most 2^k in magnitude, and within 2^(k-p)/(1-decay) of the exactly computed discounted sum - however long the history. Here decay is the value after rounding to the dtype. *)
Lemma trace_error : forall `{L : Libm} (decay : fl) (nesterov : bool),
  femits true (trace decay nesterov None) (fun d g _ n y => forall k : Z,
    let c := fval (fcast d decay) in let t := sum_f_R0 (fun i => c ^ (n - i) * fval (g i)) n in
    fisfinite (fcast d decay) = true -> 0 <= c < 1 -> (0 <= k < femax d)%Z ->
    (forall i, (i <= n)%nat -> fisfinite (g i) = true /\ Rabs (fval (g i)) <= (1 - c) * bpow radix2 k) ->
    fisfinite y = true /\ Rabs (fval y) <= bpow radix2 k /\
    Rabs (fval y - (if nesterov then fval (g n) + c * t else t)) <= bpow radix2 (k - fprec d) / (1 - c)).
Proof.
  intros L decay nv. eapply refines_femits; [apply refines_trace|]. intros d x g q n Fg _ k. cbn zeta. cbn [fisfinite fcast FlOps]. intros Fc (C0 & C1) (K0 & K1) Hg.
  destruct (leaky_run decay d k x g q n nv K0 K1 Fc C0 C1 Hg) as (A & B & C). cbn zeta in A, B, C. destruct nv.
  - change (@mout (FlOps L) (@m_trace (FlOps L) decay true) d x g q n) with (add_ (fprec d) (femax d) (g n) (mul_ (fprec d) (femax d) (cast_ d decay) (@mst (FlOps L) (@m_trace (FlOps L) decay true) d x g q (S n)))).
    set (t := @mst (FlOps L) (@m_trace (FlOps L) decay true) d x g q (S n)) in *. change (@mE (FlOps L) (@m_trace (FlOps L) decay true)) with fl in t. clearbody t. destruct (Hg n (le_n _)) as (F0 & H0).
    destruct (leaky_step d k (g n) (cast_ d decay) t K0 K1 F0 Fc (cast_format d decay) C0 C1 H0 A B) as (A' & B' & C'). split; [exact A'|]. split; [exact B'|].
    set (z := add_ _ _ _ _) in *. clearbody z. set (S0 := sum_f_R0 _ n) in *. clearbody S0. set (c := fval (cast_ d decay)) in *.
    replace (fval z - (fval (g n) + c * S0)) with ((fval z - (fval (g n) + c * fval t)) + c * (fval t - S0)) by lra.
    eapply Rle_trans; [apply Rabs_triang|]. rewrite Rabs_mult, (Rabs_pos_eq c) by lra.
    assert (D : bpow radix2 (k - fprec d) / (1 - c) = bpow radix2 (k - fprec d) + c * (bpow radix2 (k - fprec d) / (1 - c))) by (field; lra). rewrite D. nra.
  - split; [exact A|]. split; [exact B|exact C].
Qed.
(*@ex C77_example *)
Lemma trace_error_example : forall n, exists outs y, trains (O := FlOps cr_libm) (trace (O := FlOps cr_libm) (Nz (/ 2)) false None) (fone1 BF16 (Zr false)) (fhist BF16 (repeat (Nz 1) (S n))) outs /\
  oelt (O := FlOps cr_libm) outs n (0%nat, 0%nat) = Some y /\ ffin y = true /\ Rabs (fval y) <= 2 /\
  Rabs (fval y - sum_f_R0 (fun i => (/ 2) ^ (n - i) * 1) n) <= / 64.
Proof.
  intros n. assert (F1 : in_format BF16 (Nz 1)) by (rewrite <- (cast1 (L := cr_libm) BF16); apply cast_format).
  assert (FH : cast_ BF16 (Nz (/ 2)) = Nz (/ 2)).
  { apply cast_id. change (/ 2) with (bpow radix2 (-1)). split; [apply Rgt_not_eq, bpow_gt_0|]. split; [apply (fmt_bpow BF16); cbn; lia|]. rewrite Rabs_pos_eq by apply bpow_ge_0. now apply bpow_lt. }
  destruct (femits_one (L := cr_libm) (trace (O := FlOps cr_libm) (Nz (/ 2)) false None) _ BF16 (Zr false) (repeat (Nz 1) (S n)) (trace_error (L := cr_libm) (Nz (/ 2)) false)) as (outs & Ht & Ho).
  { apply Forall_forall. intros z Hz. apply repeat_spec in Hz. now subst. }
  destruct (Ho n) as (y & Ey & Hy); [rewrite repeat_length; lia|]. exists outs, y. split; [exact Ht|]. split; [exact Ey|].
  specialize (Hy 1%Z). cbn zeta in Hy. cbn [fcast fisfinite FlOps] in Hy. rewrite FH in Hy. cbn [fval ffin] in Hy.
  assert (Hn : forall i, (i <= n)%nat -> nth i (repeat (Nz 1) (S n)) Na = Nz 1) by (intros i Hi; apply (repeat_spec (S n)), nth_In; rewrite repeat_length; lia).
  destruct Hy as (A & B & C); [reflexivity|lra|cbn; lia|intros i Hi; rewrite Hn by exact Hi; cbn; rewrite Rabs_R1; split; [reflexivity|lra]|]. split; [exact A|]. split; [cbn in B; lra|].
  assert (E : sum_f_R0 (fun i => (/ 2) ^ (n - i) * fval (nth i (repeat (Nz 1) (S n)) Na)) n = sum_f_R0 (fun i => (/ 2) ^ (n - i) * 1) n) by (apply sum_eq; intros i Hi; now rewrite Hn).
  rewrite E in C. eapply Rle_trans; [exact C|]. cbn. lra.
Qed.
