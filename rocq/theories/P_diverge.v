(** Adam and convex problems: it can move away from the minimum for ever (C83); AdamW nevertheless stays in a bounded region (C84). *)
From Verif Require Export P_momentum.
From Coq Require Import List Psatz.
Import ListNotations.
Open Scope R_scope.
(*@header
From Coq Require Import List.
Import ListNotations.
Open Scope R_scope.
*)

(** ** Specification *)
(** N examples visited cyclically; the gradient at every coordinate is N at the first one and -1 at the N - 1 others, wherever the parameters are
    (the losses are linear), so that the gradient of the average loss is 1/N: the smaller the parameters the better. *)
Definition cyc (N i : nat) : R := if (i mod N =? 0)%nat then INR N else -1.
Definition cyc_grad (N i : nat) (p : tree (gt XR)) : tree (gt XR) := emapt (fun _ _ => Fin (cyc N i)) p.

(** ** The bounds *)
Section Cyc.
  Variables (N : nat) (b1 b2 : R).
  Hypotheses (HN : (2 <= N)%nat) (H1 : 0 <= b1 < 1) (H2 : 0 < b2 < 1).
  Let NN := INR N.
  Definition cpos (i : nat) : R := if (i mod N =? 0)%nat then NN else 0.
  Definition cneg (i : nat) : R := if (i mod N =? 0)%nat then 0 else 1.
  Lemma NN_2 : 2 <= NN.
  Proof. unfold NN. change 2 with (INR 2). apply le_INR. exact HN. Qed.
  Lemma mod_S n : (S n mod N = 0 \/ S n mod N = S (n mod N))%nat.
  Proof.
    pose proof (Nat.div_mod n N ltac:(lia)) as E. pose proof (Nat.mod_upper_bound n N ltac:(lia)) as U. destruct (Nat.eq_dec (S (n mod N)) N) as [E1|E1].
    - left. replace (S n) with ((S (n / N)) * N)%nat by nia. apply Nat.mod_mul. lia.
    - right. symmetry. apply (Nat.mod_unique (S n) N (n / N)); lia.
  Qed.
  Lemma wsum_split n : wsum b1 (cyc N) n = wsum b1 cpos n - wsum b1 cneg n.
  Proof.
    assert (E : forall i, cyc N i = cpos i - cneg i) by (intros i; unfold cyc, cpos, cneg, NN; destruct (_ =? _)%nat; lra).
    induction n as [|n IH]; [rewrite !wsum_0; apply E|]. rewrite !wsum_S, IH, E. ring.
  Qed.
  Lemma pow_01 b k : 0 <= b <= 1 -> 0 <= b ^ k <= 1.
  Proof. intros Hb. induction k as [|k IH]; cbn; nra. Qed.
  Lemma pos_bound n : 0 <= wsum b1 cpos n <= NN / (1 - b1) * b1 ^ (n mod N).
  Proof.
    pose proof NN_2 as B. assert (Hd : 0 < / (1 - b1)) by (apply Rinv_0_lt_compat; lra). assert (E : NN / (1 - b1) = NN + b1 * (NN / (1 - b1))) by (field; lra).
    assert (Hp : 0 <= NN / (1 - b1)) by (unfold Rdiv; nra).
    induction n as [|n IH]; [rewrite wsum_0, Nat.mod_0_l by lia; unfold cpos; rewrite Nat.mod_0_l by lia; cbn; nra|].
    rewrite wsum_S. unfold cpos at 1 3. pose proof (pow_01 b1 (n mod N) ltac:(lra)) as Q. destruct (mod_S n) as [K|K]; rewrite K; [cbn [Nat.eqb pow]|cbn [Nat.eqb pow]].
    - set (w := wsum b1 cpos n) in *. set (c := NN / (1 - b1)) in *. assert (w <= c) by nra. nra.
    - set (w := wsum b1 cpos n) in *. set (c := NN / (1 - b1)) in *. split; [nra|]. replace (c * (b1 * b1 ^ (n mod N))) with (b1 * (c * b1 ^ (n mod N))) by ring. nra.
  Qed.
  Lemma neg_bound n : 0 <= wsum b1 cneg n /\ ((n mod N <> 0)%nat -> 1 <= wsum b1 cneg n).
  Proof.
    assert (Hc : forall i, 0 <= cneg i) by (intros i; unfold cneg; destruct (_ =? _)%nat; lra).
    assert (A : forall k, 0 <= wsum b1 cneg k) by (intros k; induction k as [|k IH]; [rewrite wsum_0; apply Hc|]; rewrite wsum_S; pose proof (Hc (S k)); nra).
    split; [apply A|]. intros K. assert (E : cneg n = 1) by (unfold cneg; destruct (Nat.eqb_spec (n mod N) 0); [contradiction|reflexivity]).
    destruct n as [|n]; [rewrite wsum_0; lra|]. rewrite wsum_S, E. pose proof (A n). nra.
  Qed.
  Lemma sq_bound n : NN ^ 2 * b2 ^ (n mod N) <= wsum b2 (fun i => cyc N i * cyc N i) n <= (NN ^ 2 * b2 ^ (n mod N) + 1) / (1 - b2).
  Proof.
    pose proof NN_2 as B. assert (Hd : 0 < / (1 - b2)) by (apply Rinv_0_lt_compat; lra). set (D := / (1 - b2)) in *. assert (ED : D = 1 + b2 * D) by (unfold D; field; lra).
    unfold Rdiv. fold D. assert (BB : 4 <= NN ^ 2) by nra. set (M := NN ^ 2) in *.
    assert (C0 : forall i, (i mod N = 0)%nat -> cyc N i * cyc N i = M) by (intros i K; unfold cyc; rewrite K; cbn [Nat.eqb]; unfold M, NN; ring).
    assert (C1 : forall i, (i mod N <> 0)%nat -> cyc N i * cyc N i = 1) by (intros i K; unfold cyc; destruct (Nat.eqb_spec (i mod N) 0); [contradiction|ring]).
    induction n as [|n IH]; [rewrite wsum_0, C0, Nat.mod_0_l by (try apply Nat.mod_0_l; lia); cbn [pow]; nra|].
    rewrite wsum_S. pose proof (pow_01 b2 (n mod N) ltac:(lra)) as Q. set (w := wsum b2 _ n) in *. set (q := b2 ^ (n mod N)) in *. assert (MQ : 0 <= M * q) by nra.
    destruct (mod_S n) as [K|K].
    - rewrite C0 by exact K. rewrite K. cbn [pow]. split; [nra|]. assert (w <= (M + 1) * D) by nra. replace ((M * 1 + 1) * D) with (M * D + D) by ring. rewrite ED at 1. nra.
    - rewrite C1 by (rewrite K; lia). rewrite K. cbn [pow]. fold q. split; [nra|]. replace ((M * (b2 * q) + 1) * D) with (b2 * (M * q) * D + D) by ring. rewrite ED at 2. nra.
  Qed.
End Cyc.
Lemma bc_low b n : 0 <= b < 1 -> 1 - b <= 1 - b ^ satcount (S n) <= 1.
Proof.
  intros Hb. pose proof (satcount_pos n) as Hp. destruct (satcount (S n)) as [|m]; [lia|]. pose proof (pow_01 b m ltac:(lra)) as Q. cbn [pow]. nra.
Qed.
Lemma sqrt_pow b k : 0 <= b -> sqrt (b ^ k) = sqrt b ^ k.
Proof. intros Hb. induction k as [|k IH]; [apply sqrt_1|]. cbn [pow]. rewrite sqrt_mult, IH by (try apply pow_le; assumption). reflexivity. Qed.
Section Dir.
  Variables (N K : nat) (b1 b2 eps er : R).
  Hypotheses (HN : (2 <= N)%nat) (H1 : 0 <= b1 < 1) (H2 : 0 < b2 < 1) (He : 0 < eps) (Hr : 0 <= er) (HK : (1 <= K)%nat) (HNK : INR N ^ 2 * b2 ^ K <= 1).
  Definition dA := / ((1 - b1) * sqrt (1 - b2)).
  Definition dr := b1 / sqrt b2.
  Definition drho := (1 - b1) / (sqrt (2 / (1 - b2) + er) + eps).
  Lemma dir_bound n : adam_dir b1 b2 eps er (cyc N) n <= dA * dr ^ (n mod N) - (if (K <=? n mod N)%nat then drho else 0).
  Proof.
    unfold adam_dir. fold (wsum b1 (cyc N) n). fold (wsum b2 (fun i => cyc N i * cyc N i) n). cbn zeta. rewrite (wsum_split N b1).
    pose proof (NN_2 N HN) as BN. pose proof (pos_bound N b1 b2 HN H1 H2 n) as BP. destruct (neg_bound N b1 H1 n) as (BQ0 & BQ1). pose proof (sq_bound N b1 b2 HN H1 H2 n) as BV.
    pose proof (bc_low b1 n H1) as C1. pose proof (bc_low b2 n ltac:(lra)) as C2. set (k := (n mod N)%nat) in *. set (p := wsum b1 (cpos N) n) in *. set (q := wsum b1 (cneg N) n) in *. set (V := wsum b2 _ n) in *.
    set (c1 := 1 - b1 ^ _) in *. set (c2 := 1 - b2 ^ _) in *. set (M := INR N) in *. set (vh := (1 - b2) * V / c2).
    assert (Hs2 : 0 < sqrt (1 - b2)) by (apply sqrt_lt_R0; lra). assert (Hsb : 0 < sqrt b2) by (apply sqrt_lt_R0; lra).
    assert (Hbk : 0 < b2 ^ k) by (apply pow_lt; lra). assert (Hb1k : 0 <= b1 ^ k) by (apply pow_le; lra).
    assert (Hc2 : 1 <= / c2 <= / (1 - b2)) by (split; [rewrite <- Rinv_1 at 1|]; apply Rinv_le_contravar; lra).
    assert (Hc1 : 1 <= / c1 <= / (1 - b1)) by (split; [rewrite <- Rinv_1 at 1|]; apply Rinv_le_contravar; lra).
    assert (HV0 : 0 < V) by (eapply Rlt_le_trans; [|apply BV]; apply Rmult_lt_0_compat; [nra|assumption]).
    assert (L1 : (1 - b2) * (M ^ 2 * b2 ^ k) <= vh). { unfold vh, Rdiv. assert ((1 - b2) * (M ^ 2 * b2 ^ k) <= (1 - b2) * V) by (apply Rmult_le_compat_l; [lra|apply BV]). assert (0 <= (1 - b2) * V) by nra. nra. }
    assert (L2 : vh <= (M ^ 2 * b2 ^ k + 1) / (1 - b2)).
    { assert (X : (1 - b2) * V <= M ^ 2 * b2 ^ k + 1). { apply Rle_trans with ((1 - b2) * ((M ^ 2 * b2 ^ k + 1) / (1 - b2))); [apply Rmult_le_compat_l; [lra|apply BV]|right; field; lra]. }
      unfold vh, Rdiv. assert (0 <= (1 - b2) * V) by nra. apply Rmult_le_compat; lra. }
    set (D := sqrt (vh + er) + eps). assert (D1 : sqrt (1 - b2) * (M * sqrt b2 ^ k) <= D).
    { unfold D. assert (X : sqrt ((1 - b2) * (M ^ 2 * b2 ^ k)) <= sqrt (vh + er)) by (apply sqrt_le_1_alt; lra).
      assert (Y : sqrt ((1 - b2) * (M ^ 2 * b2 ^ k)) = sqrt (1 - b2) * (M * sqrt b2 ^ k)). { rewrite !sqrt_mult by nra. rewrite sqrt_pow2, sqrt_pow by lra. ring. } lra. }
    assert (Hsk : 0 < sqrt b2 ^ k) by now apply pow_lt. assert (D0 : 0 < sqrt (1 - b2) * (M * sqrt b2 ^ k)) by (apply Rmult_lt_0_compat; [|apply Rmult_lt_0_compat]; lra). assert (DD : 0 < D) by lra.
    replace ((1 - b1) * (p - q) / c1 / D) with ((1 - b1) * p * / c1 * / D - (1 - b1) * q * / c1 * / D) by (field; lra).
    assert (T1 : (1 - b1) * p * / c1 * / D <= dA * dr ^ k).
    { apply Rle_trans with (M * b1 ^ k * / (1 - b1) * / (sqrt (1 - b2) * (M * sqrt b2 ^ k))).
      - assert (X : (1 - b1) * p <= M * b1 ^ k). { apply Rle_trans with ((1 - b1) * (M / (1 - b1) * b1 ^ k)); [apply Rmult_le_compat_l; [lra|apply BP]|right; field; lra]. }
        assert (0 <= (1 - b1) * p) by (apply Rmult_le_pos; lra). apply Rmult_le_compat; [apply Rmult_le_pos; lra|left; now apply Rinv_0_lt_compat| |now apply Rinv_le_contravar].
        apply Rmult_le_compat; lra.
      - right. unfold dA, dr. unfold Rdiv. rewrite Rpow_mult_distr, pow_inv by lra. field. repeat split; lra. }
    assert (T2 : 0 <= (1 - b1) * q * / c1 * / D). { assert (0 < / D) by now apply Rinv_0_lt_compat. repeat apply Rmult_le_pos; lra. }
    destruct (Nat.leb_spec K k) as [Hk|Hk]; [|lra].
    assert (T3 : drho <= (1 - b1) * q * / c1 * / D); [|lra].
    assert (Q1 : 1 <= q) by (apply BQ1; lia). unfold drho, Rdiv.
    assert (D2 : D <= sqrt (2 * / (1 - b2) + er) + eps).
    { unfold D. apply Rplus_le_compat_r, sqrt_le_1_alt, Rplus_le_compat_r. eapply Rle_trans; [exact L2|]. unfold Rdiv. apply Rmult_le_compat_r; [lra|].
      assert (b2 ^ k <= b2 ^ K). { replace k with (K + (k - K))%nat by lia. rewrite pow_add. pose proof (pow_01 b2 (k - K) ltac:(lra)) as Q. assert (0 < b2 ^ K) by (apply pow_lt; lra). nra. }
      assert (M ^ 2 * b2 ^ k <= M ^ 2 * b2 ^ K) by (apply Rmult_le_compat_l; [nra|assumption]). lra. }
    apply Rmult_le_compat; [lra|left; apply Rinv_0_lt_compat; pose proof (sqrt_pos (2 * / (1 - b2) + er)); lra| |now apply Rinv_le_contravar].
    assert ((1 - b1) <= (1 - b1) * q) by nra. nra.
  Qed.
  Hypothesis H12 : b1 * b1 < b2.
  Lemma dr_range : 0 <= dr < 1.
  Proof.
    assert (Hsb : 0 < sqrt b2) by (apply sqrt_lt_R0; lra). unfold dr. split; [apply Rmult_le_pos; [lra|left; now apply Rinv_0_lt_compat]|]. apply Rmult_lt_reg_r with (sqrt b2); [exact Hsb|]. unfold Rdiv. rewrite Rmult_assoc, Rinv_l, Rmult_1_r, Rmult_1_l by lra.
    rewrite <- (sqrt_square b1) by lra. apply sqrt_lt_1_alt. nra.
  Qed.
  Lemma geo_sum r n : 0 <= r < 1 -> rsum (map (fun k => r ^ k) (seq 0 n)) <= / (1 - r).
  Proof.
    intros Hr'. assert (E : rsum (map (fun k => r ^ k) (seq 0 n)) = (1 - r ^ n) / (1 - r)); [|rewrite E; unfold Rdiv; pose proof (pow_01 r n ltac:(lra)); assert (0 < / (1 - r)) by (apply Rinv_0_lt_compat; lra); nra].
    induction n as [|n IH]; [cbn [seq map]; rewrite rsum_nil; cbn [pow]; field; lra|]. rewrite rsum_seq_S, IH. cbn [pow]. field. lra.
  Qed.
  Lemma cycle_bound c : (K <= N)%nat -> rsum (map (fun k => adam_dir b1 b2 eps er (cyc N) (c * N + k)) (seq 0 N)) <= dA * / (1 - dr) - INR (N - K) * drho.
  Proof.
    intros HKN. pose proof dr_range as Hdr. assert (HA : 0 < dA) by (unfold dA; apply Rinv_0_lt_compat, Rmult_lt_0_compat; [lra|apply sqrt_lt_R0; lra]).
    apply Rle_trans with (rsum (map (fun k => dA * dr ^ k - (if (K <=? k)%nat then drho else 0)) (seq 0 N))).
    - apply rsum_map_le. intros k Hk. apply in_seq in Hk. assert (E : ((c * N + k) mod N = k)%nat) by (rewrite Nat.add_comm, Nat.mod_add by lia; apply Nat.mod_small; lia).
      pose proof (dir_bound (c * N + k)) as B. rewrite E in B. exact B.
    - rewrite rsum_map_sub, (rsum_map_scal dA). apply Rplus_le_compat; [apply Rmult_le_compat_l; [lra|now apply geo_sum]|]. apply Ropp_le_contravar. right.
      replace N with (K + (N - K))%nat at 2 by lia. rewrite seq_app, map_app, rsum_app. cbn [plus].
      rewrite (rsum_map_ext (fun k => if (K <=? k)%nat then drho else 0) (fun _ => 0) (seq 0 K)) by (intros k Hk; apply in_seq in Hk; destruct (Nat.leb_spec K k); [lia|reflexivity]).
      rewrite (rsum_map_ext (fun k => if (K <=? k)%nat then drho else 0) (fun _ => drho) (seq K (N - K))) by (intros k Hk; apply in_seq in Hk; destruct (Nat.leb_spec K k); [reflexivity|lia]).
      rewrite !rsum_map_const, !seq_length. ring.
  Qed.
End Dir.
Lemma above x : exists n, x <= INR n.
Proof.
  exists (Z.to_nat (Z.max 0 (up x))). rewrite INR_IZR_INZ, Z2Nat.id by lia. destruct (archimed x) as (H & _). pose proof (IZR_le _ _ (Z.le_max_r 0 (up x))). lra.
Qed.
(** A period long enough. *)
Lemma period b1 b2 eps er M : 0 <= b1 < 1 -> 0 < b2 < 1 -> 0 < eps -> 0 <= er -> b1 * b1 < b2 ->
  exists N K, (2 <= N)%nat /\ (1 <= K)%nat /\ (K <= N)%nat /\ INR N ^ 2 * b2 ^ K <= 1 /\ dA b1 b2 * / (1 - dr b1 b2) - INR (N - K) * drho b1 b2 eps er <= - M.
Proof.
  intros H1 H2 He Hr H12. set (h := / b2 - 1). assert (Hh : 0 < h) by (unfold h; assert (1 < / b2) by (rewrite <- Rinv_1 at 1; apply Rinv_lt_contravar; lra); lra).
  assert (Hrho : 0 < drho b1 b2 eps er). { unfold drho. apply Rdiv_lt_0_compat; [lra|]. pose proof (sqrt_pos (2 / (1 - b2) + er)). lra. }
  set (B := dA b1 b2 * / (1 - dr b1 b2) + M). set (rho := drho b1 b2 eps er) in *.
  assert (A : forall x y, exists j, x <= INR j /\ y <= INR j /\ (1 <= j)%nat).
  { intros x y. destruct (above x) as (i & Hi). destruct (above y) as (j & Hj). exists (S (Nat.max i j)). rewrite S_INR. pose proof (le_INR _ _ (Nat.le_max_l i j)). pose proof (le_INR _ _ (Nat.le_max_r i j)). repeat split; [lra|lra|lia]. }
  destruct (A (36 * / (h * h * h)) (B * / (3 * rho))) as (j & J1 & J2 & J3). exists (6 * j)%nat, (3 * j)%nat. split; [lia|]. split; [lia|]. split; [lia|].
  assert (Jp : 1 <= INR j) by (change 1 with (INR 1); now apply le_INR). split.
  - replace (3 * j)%nat with (j + (j + j))%nat by lia. rewrite !pow_add, mult_INR. replace (INR 6) with 6 by (cbn; lra). set (x := INR j) in *. set (q := b2 ^ j).
    assert (Q : q * (x * h) <= 1). { pose proof (poly j h Hh) as Q. replace (1 + h) with (/ b2) in Q by (unfold h; ring). rewrite pow_inv in Q by lra. fold x q in Q. assert (0 < q) by (apply pow_lt; lra).
      apply Rmult_le_reg_l with (/ q); [now apply Rinv_0_lt_compat|]. rewrite <- Rmult_assoc, Rinv_l by lra. lra. }
    assert (Hq : 0 < q) by (apply pow_lt; lra). assert (H3 : 0 < h * h * h) by (repeat apply Rmult_lt_0_compat; assumption).
    assert (X : 36 <= x * (h * h * h)). { apply Rmult_le_reg_r with (/ (h * h * h)); [now apply Rinv_0_lt_compat|]. replace (x * (h * h * h) * / (h * h * h)) with x by (field; lra). lra. }
    assert (Y : q * (x * h) * (q * (x * h)) * (q * (x * h)) <= 1). { set (y := q * (x * h)) in *. assert (0 <= y) by (unfold y; repeat apply Rmult_le_pos; lra). assert (y * y <= 1) by nra. nra. }
    replace ((6 * x) ^ 2 * (q * (q * q))) with (36 * (x ^ 2 * (q * q * q))) by ring. replace (q * (x * h) * (q * (x * h)) * (q * (x * h))) with (x * (h * h * h) * (x ^ 2 * (q * q * q))) in Y by ring.
    eapply Rle_trans; [|exact Y]. apply Rmult_le_compat_r; [|exact X]. apply Rmult_le_pos; [nra|]. repeat apply Rmult_le_pos; lra.
  - replace (6 * j - 3 * j)%nat with (3 * j)%nat by lia. rewrite mult_INR. replace (INR 3) with 3 by (cbn; lra). set (x := INR j) in *.
    assert (B <= 3 * x * rho); [|unfold B in *; lra]. replace (3 * x * rho) with (x * (3 * rho)) by ring. apply Rmult_le_reg_r with (/ (3 * rho)); [apply Rinv_0_lt_compat; lra|]. replace (x * (3 * rho) * / (3 * rho)) with x by (field; lra). lra.
Qed.

(** ** C83 *)
Lemma cyc_sum N : (2 <= N)%nat -> rsum (map (cyc N) (seq 0 N)) = 1.
Proof.
  intros HN. destruct N as [|N]; [lia|]. cbn [seq map]. rewrite rsum_cons. unfold cyc at 1. rewrite Nat.mod_0_l by lia. cbn [Nat.eqb].
  rewrite (rsum_map_ext _ (fun _ => -1)); [rewrite rsum_map_const, seq_length, S_INR; lra|]. intros k Hk. apply in_seq in Hk. unfold cyc. rewrite Nat.mod_small by lia. destruct (Nat.eqb_spec k 0); [lia|reflexivity].
Qed.
Lemma cyc_grad_ok `{P : Platform} N i p : trwf p -> point_of p (cyc_grad N i p).
Proof.
  intros Wp. split; [split; [unfold cyc_grad; now rewrite emapt_avals|now apply emapt_wf]|]. apply finite_of_elts. intros pos v. unfold cyc_grad. rewrite elt_emapt.
  destruct (elt p pos) as [w|]; [|discriminate]. intros [= <-]. eexists; reflexivity.
Qed.
Lemma cyc_grad_vals N i p j : (j < length (rvals p))%nat -> nth j (rvals (cyc_grad N i p)) 0 = cyc N i.
Proof.
  intros Hj. assert (E : rvals (cyc_grad N i p) = map (fun _ => cyc N i) (rvals p)).
  { unfold rvals, vals, cyc_grad, emapt. rewrite leaves_tmap, map_map. change (fun x : gt XR => dat (emap (fun _ _ => Fin (cyc N i)) x)) with (fun x : gt XR => map (fun _ => Fin (cyc N i)) (dat x)).
    rewrite <- (map_map dat (map (fun _ => Fin (cyc N i)))), <- concat_map, !map_map. reflexivity. }
  rewrite E. rewrite (nth_indep _ 0 ((fun _ => cyc N i) 0)) by now rewrite map_length. exact (map_nth (fun _ => cyc N i) (rvals p) 0 j).
Qed.
Lemma cyc_loop `{P : Platform} (T : GT) (dir : (nat -> R) -> nat -> R) (lr : R) N c p : @emits P true T (fun g _ n y => y = Fin (- lr * dir g n)) -> trwf p -> finite_tree p ->
  (forall g h n, (forall i, (i <= n)%nat -> g i = h i) -> dir g n = dir h n) ->
  exists s0 qs sf, init T p = Ok s0 /\ train_loop T s0 p (map (fun i => cyc_grad N i p) (seq 0 (c * N))) = Ok (qs, sf) /\ length qs = (c * N)%nat /\ Forall (point_of p) qs /\
    forall j e, (j < length (rvals p))%nat -> (e <= c)%nat -> nth j (rvals (nth (e * N) (p :: qs) p)) 0 = nth j (rvals p) 0 - lr * rsum (map (fun a => rsum (map (fun k => dir (cyc N) (a * N + k)%nat) (seq 0 N))) (seq 0 e)).
Proof.
  intros HE Wp Fp Hext. set (gs := map (fun i => cyc_grad N i p) (seq 0 (c * N))). assert (Hg : Forall (point_of p) gs) by (unfold gs; apply Forall_forall; intros u Hu; apply in_map_iff in Hu as (i & <- & _); now apply cyc_grad_ok).
  assert (Lg : length gs = (c * N)%nat) by (unfold gs; rewrite map_length; apply seq_length).
  destruct (loop_vec T (fun g n => - lr * dir g n) HE p gs Wp Fp Hg) as (s0 & qs & sf & Ei & El & Hl & Hq & Hs). exists s0, qs, sf. split; [exact Ei|]. split; [exact El|]. rewrite Lg in Hl. split; [exact Hl|]. split; [exact Hq|].
  intros j e Hj He. set (X := fun t => nth j (rvals (nth t (p :: qs) p)) 0).
  assert (HS : forall t, (t < c * N)%nat -> X (S t) = X t - lr * dir (cyc N) t).
  { intros t Ht. pose proof (Hs j t Hj ltac:(rewrite Lg; exact Ht)) as E. cbn beta in E. unfold pt in E. unfold X. nx. rewrite E. rewrite (Hext _ (cyc N) t); [ring|].
    intros i Hi. unfold gs. rewrite (nth_indep _ p (cyc_grad N 0 p)) by (rewrite map_length, seq_length; lia). rewrite (map_nth (fun i => cyc_grad N i p)), seq_nth by lia. apply cyc_grad_vals. exact Hj. }
  assert (HC : forall t k, (t + k <= c * N)%nat -> X (t + k)%nat = X t - lr * rsum (map (fun k => dir (cyc N) (t + k)%nat) (seq 0 k))).
  { intros t k. induction k as [|k IH]; intros Hk; [rewrite Nat.add_0_r; cbn [seq map]; rewrite rsum_nil; ring|]. rewrite Nat.add_succ_r, HS by lia. rewrite IH by lia. rewrite rsum_seq_S. ring. }
  change (X (e * N)%nat = nth j (rvals p) 0 - lr * rsum (map (fun a => rsum (map (fun k => dir (cyc N) (a * N + k)%nat) (seq 0 N))) (seq 0 e))).
  induction e as [|e IH]; [cbn [seq map Nat.mul]; rewrite rsum_nil; unfold X; cbn [nth]; ring|]. rewrite rsum_seq_S. replace (S e * N)%nat with (e * N + N)%nat by lia. rewrite HC by nia. rewrite IH by lia. ring.
Qed.
Lemma adam_dir_ext b1 b2 eps er g h n : (forall i, (i <= n)%nat -> g i = h i) -> adam_dir b1 b2 eps er g n = adam_dir b1 b2 eps er h n.
Proof.
  intros E. unfold adam_dir. cbn zeta. rewrite (sum_eq (fun i => b1 ^ (n - i) * g i) (fun i => b1 ^ (n - i) * h i)) by (intros i Hi; now rewrite E).
  rewrite (sum_eq (fun i => b2 ^ (n - i) * (g i * g i)) (fun i => b2 ^ (n - i) * (h i * h i))) by (intros i Hi; now rewrite E). reflexivity.
Qed.
(*@ C83_adam_diverges : Finding. For every learning rate lr > 0, every b1, b2 with b1^2 < b2 (the defaults in particular), eps > 0 and eps_root >= 0, and every speed M there is a training set of N examples with linear losses, whose average loss grows with every parameter (the gradients of an epoch add up to 1), such that adam run on its gradients epoch after epoch increases every parameter by at least lr * M in every epoch, for ever, while sgd with the same learning rate decreases every parameter by lr in every epoch. *)
Lemma adam_diverges : forall `{P : Platform} (lr b1 b2 eps er M : R), 0 < lr -> 0 <= b1 < 1 -> 0 < b2 < 1 -> b1 * b1 < b2 -> 0 < eps -> 0 <= er ->
  exists N, (2 <= N)%nat /\ rsum (map (cyc N) (seq 0 N)) = 1 /\ forall (p : tree tensor) (epochs : nat), trwf p -> finite_tree p ->
    let gs := map (fun i => cyc_grad N i p) (seq 0 (epochs * N)) in
    (exists T s0 qs sf, adam (LConst (Fin lr)) (Fin b1) (Fin b2) (Fin eps) (Fin er) = Ok T /\ init T p = Ok s0 /\ train_loop T s0 p gs = Ok (qs, sf) /\ length qs = (epochs * N)%nat /\ Forall (point_of p) qs /\
      forall j e, (j < length (rvals p))%nat -> (e <= epochs)%nat -> nth j (rvals p) 0 + INR e * (lr * M) <= nth j (rvals (nth (e * N) (p :: qs) p)) 0) /\
    (exists T s0 qs sf, sgd (LConst (Fin lr)) None false = Ok T /\ init T p = Ok s0 /\ train_loop T s0 p gs = Ok (qs, sf) /\ length qs = (epochs * N)%nat /\ Forall (point_of p) qs /\
      forall j e, (j < length (rvals p))%nat -> (e <= epochs)%nat -> nth j (rvals (nth (e * N) (p :: qs) p)) 0 = nth j (rvals p) 0 - INR e * lr).
Proof.
  intros P lr b1 b2 eps er M Hlr H1 H2 H12 He Hr. destruct (period b1 b2 eps er M H1 H2 He Hr H12) as (N & K & HN & HK & HKN & HNK & HM). exists N. split; [exact HN|]. split; [now apply cyc_sum|].
  intros p c Wp Fp. cbn zeta. split.
  - destruct (alias_closed_forms (@LConst (XROps P) (Fin lr)) (fun _ => lr) b1 b2 eps er 5 0) as ((T & ET & HE) & _); [reflexivity|lra|lra|lra|lra|lra|lra|]. exists T.
    destruct (cyc_loop T (adam_dir b1 b2 eps er) lr N c p HE Wp Fp (adam_dir_ext b1 b2 eps er)) as (s0 & qs & sf & Ei & El & Hl & Hq & Hx). exists s0, qs, sf. repeat (split; [assumption|]). intros j e Hj Hec. nx. rewrite (Hx j e Hj Hec).
    assert (B : rsum (map (fun a => rsum (map (fun k => adam_dir b1 b2 eps er (cyc N) (a * N + k)%nat) (seq 0 N))) (seq 0 e)) <= INR e * - M).
    { eapply Rle_trans; [apply (rsum_map_le _ (fun _ => - M))|rewrite rsum_map_const, seq_length; lra]. intros a _. eapply Rle_trans; [now apply (cycle_bound N K)|exact HM]. }
    set (s := rsum _) in *. nra.
  - destruct (sgd_emits (@LConst (XROps P) (Fin lr)) (fun _ => lr) None false (fun _ => eq_refl)) as (T & ET & HE). exists T.
    destruct (cyc_loop T (momentum_of None false) lr N c p HE Wp Fp) as (s0 & qs & sf & Ei & El & Hl & Hq & Hx); [intros g h n E; apply E; lia|]. exists s0, qs, sf. repeat (split; [assumption|]). intros j e Hj Hec. nx. rewrite (Hx j e Hj Hec).
    rewrite (rsum_map_ext _ (fun _ => 1)); [rewrite rsum_map_const, seq_length; ring|]. intros a _. rewrite <- (cyc_sum N HN). apply rsum_map_ext. intros k Hk. apply in_seq in Hk. cbn [momentum_of]. unfold cyc. rewrite Nat.add_comm, Nat.mod_add by lia. reflexivity.
Qed.
(** ** C84 *)
(** No sequence of gradients makes a bias-corrected Adam direction larger than this. *)
Definition adam_max (b1 b2 : R) : R := / sqrt ((1 - b2) * (1 - b1 * b1 / b2)).
Lemma adam_dir_max b1 b2 eps er g n : 0 <= b1 < 1 -> 0 < b2 < 1 -> b1 * b1 < b2 -> 0 < eps -> 0 <= er -> Rabs (adam_dir b1 b2 eps er g n) <= adam_max b1 b2.
Proof.
  intros H1 H2 H12 He Hr. unfold adam_dir. cbn zeta. fold (wsum b1 g n). fold (wsum b2 (fun i => g i * g i) n). pose proof (bc_low b1 n H1) as C1. pose proof (bc_low b2 n ltac:(lra)) as C2. set (c1 := 1 - b1 ^ _) in *. set (c2 := 1 - b2 ^ _) in *.
  pose proof (cs_wsum b1 b2 g n ltac:(lra) ltac:(lra)) as CS. set (m := wsum b1 g n) in *. set (V := wsum b2 _ n) in *.
  set (r := b1 * b1 / b2) in *. assert (Hr1 : 0 <= r < 1). { unfold r. split; [apply Rmult_le_pos; [nra|left; apply Rinv_0_lt_compat; lra]|]. apply Rmult_lt_reg_r with b2; [lra|]. unfold Rdiv. rewrite Rmult_assoc, Rinv_l, Rmult_1_r, Rmult_1_l by lra. exact H12. }
  assert (HK : geo r n <= / (1 - r)). { apply Rmult_le_reg_l with (1 - r); [lra|]. rewrite Rinv_r by lra. clear -Hr1. induction n as [|n IH]; [unfold geo; cbn; lra|]. rewrite geo_S. nra. }
  assert (V0 : 0 <= V). { unfold V. apply wsum_nonneg; [lra|]. intros i _. apply Rle_0_sqr. }
  set (vh := (1 - b2) * V / c2). assert (Hc2 : 1 <= / c2) by (rewrite <- Rinv_1 at 1; apply Rinv_le_contravar; lra). assert (Hc1 : 0 < / c1) by (apply Rinv_0_lt_compat; lra).
  assert (L : (1 - b2) * V <= vh) by (unfold vh, Rdiv; assert (0 <= (1 - b2) * V) by (apply Rmult_le_pos; lra); nra). set (w := (1 - b2) * (1 - r)). assert (Hw : 0 < w) by (unfold w; nra).
  assert (Q : w * (m * m) <= vh). { apply Rle_trans with ((1 - b2) * V); [|exact L]. unfold w. rewrite Rmult_assoc. apply Rmult_le_compat_l; [lra|]. assert (K1 : (1 - r) * geo r n <= 1) by (apply Rmult_le_reg_l with (/ (1 - r)); [apply Rinv_0_lt_compat; lra|]; rewrite <- Rmult_assoc, Rinv_l, Rmult_1_l, Rmult_1_r by lra; exact HK).
    apply Rle_trans with ((1 - r) * (geo r n * V)); [apply Rmult_le_compat_l; [lra|exact CS]|]. rewrite <- Rmult_assoc. rewrite <- (Rmult_1_l V) at 2. now apply Rmult_le_compat_r. }
  assert (S1 : sqrt w * Rabs m <= sqrt (vh + er)). { rewrite <- sqrt_Rsqr_abs, <- sqrt_mult by (try apply Rle_0_sqr; lra). apply sqrt_le_1_alt. unfold Rsqr. lra. }
  assert (Sw : 0 < sqrt w) by now apply sqrt_lt_R0. unfold adam_max. fold r w. pose proof (sqrt_pos (vh + er)) as S0. set (D := sqrt (vh + er) + eps). assert (DD : 0 < D) by (unfold D; lra).
  unfold Rdiv. rewrite !Rabs_mult, !Rabs_inv, (Rabs_right D), (Rabs_right c1), (Rabs_right (1 - b1)) by lra.
  apply Rle_trans with (1 * Rabs m * / D).
  - apply Rmult_le_compat_r; [left; now apply Rinv_0_lt_compat|]. replace ((1 - b1) * Rabs m * / c1) with ((1 - b1) * / c1 * Rabs m) by ring. apply Rmult_le_compat_r; [apply Rabs_pos|]. apply Rmult_le_reg_r with c1; [lra|]. rewrite Rmult_assoc, Rinv_l by lra. lra.
  - apply Rmult_le_reg_r with D; [exact DD|]. rewrite Rmult_assoc, Rinv_l by lra. apply Rmult_le_reg_l with (sqrt w); [exact Sw|]. replace (sqrt w * (/ sqrt w * D)) with D by (field; lra). unfold D. lra.
Qed.
(*@ C84_adam_speed : adam: whatever finite gradients it is given, the training loop never fails and after t steps no parameter has moved further than adam_max b1 b2 times the sum of the t learning rates, adam_max being 1/sqrt((1-b2)(1-b1^2/b2)) (about 72.7 with the default b1, b2). *)
Lemma adam_speed : forall `{P : Platform} (L : lrate) (lr : Z -> R) (b1 b2 eps er : R) (p : tree tensor) (gs : list (tree tensor)), (forall c, rate L c = Fin (lr c)) -> (forall c, 0 <= lr c) -> 0 <= b1 < 1 -> 0 < b2 < 1 -> b1 * b1 < b2 -> 0 < eps -> 0 <= er ->
  trwf p -> finite_tree p -> Forall (point_of p) gs ->
  exists T s0 qs sf, adam L (Fin b1) (Fin b2) (Fin eps) (Fin er) = Ok T /\ init T p = Ok s0 /\ train_loop T s0 p gs = Ok (qs, sf) /\ length qs = length gs /\ Forall (point_of p) qs /\
    forall j t, (j < length (rvals p))%nat -> (t <= length gs)%nat -> Rabs (nth j (rvals (nth t (p :: qs) p)) 0 - nth j (rvals p) 0) <= adam_max b1 b2 * rsum (map (fun i => lr (count_at i)) (seq 0 t)).
Proof.
  intros P L lr b1 b2 eps er p gs HL Hlr H1 H2 H12 He Hr Wp Fp Hg.
  destruct (alias_closed_forms L lr b1 b2 eps er 5 0 HL) as ((T & ET & HE) & _); [lra|lra|lra|lra|lra|lra|]. exists T.
  destruct (loop_vec T (fun g n => - lr (count_at n) * adam_dir b1 b2 eps er g n) HE p gs Wp Fp Hg) as (s0 & qs & sf & Ei & El & Hl & Hq & Hs). exists s0, qs, sf. repeat (split; [assumption|]).
  intros j t Hj. induction t as [|t IH]; intros Ht; [cbn [nth seq map]; rewrite rsum_nil, Rminus_diag_eq, Rabs_R0 by reflexivity; lra|].
  nx. pose proof (Hs j t Hj ltac:(lia)) as E. cbn beta in E. unfold pt in E. nx. rewrite E, rsum_seq_S. specialize (IH ltac:(lia)). nx.
  set (x := nth j (rvals (nth t (p :: qs) p)) 0) in *. set (g := fun k => nth j (rvals (nth k gs p)) 0) in *. pose proof (adam_dir_max b1 b2 eps er g t H1 H2 H12 He Hr) as B. pose proof (Hlr (count_at t)) as B2. set (u := adam_dir _ _ _ _ _ _) in *. set (l := lr (count_at t)) in *. set (x0 := nth j (rvals p) 0) in *.
  replace (x + - l * u - x0) with ((x - x0) + - (l * u)) by ring. eapply Rle_trans; [apply Rabs_triang|]. rewrite Rabs_Ropp, Rabs_mult, (Rabs_right l) by lra. nra.
Qed.
(*@ C84_adamw_bounded : adamw: if every learning rate lr has 0 <= lr and lr * weight_decay <= 1, weight_decay > 0 then, whatever finite gradients it is given, the training loop never fails and no parameter ever exceeds in magnitude the larger of its initial magnitude and adam_max b1 b2 / weight_decay. *)
Lemma adamw_bounded : forall `{P : Platform} (L : lrate) (lr : Z -> R) (b1 b2 eps er wd : R) (p : tree tensor) (gs : list (tree tensor)), (forall c, rate L c = Fin (lr c)) -> (forall c, 0 <= lr c /\ lr c * wd <= 1) -> 0 <= b1 < 1 -> 0 < b2 < 1 -> b1 * b1 < b2 -> 0 < eps -> 0 <= er -> 0 < wd ->
  trwf p -> finite_tree p -> Forall (point_of p) gs ->
  exists T s0 qs sf, adamw L (Fin b1) (Fin b2) (Fin eps) (Fin er) (Fin wd) = Ok T /\ init T p = Ok s0 /\ train_loop T s0 p gs = Ok (qs, sf) /\ length qs = length gs /\ Forall (point_of p) qs /\
    forall j t, (j < length (rvals p))%nat -> (t <= length gs)%nat -> Rabs (nth j (rvals (nth t (p :: qs) p)) 0) <= Rmax (Rabs (nth j (rvals p) 0)) (adam_max b1 b2 / wd).
Proof.
  intros P L lr b1 b2 eps er wd p gs HL Hlr H1 H2 H12 He Hr Hw Wp Fp Hg.
  destruct (adamw_closed_form L lr b1 b2 eps er wd HL) as (T & ET & HE); [lra|lra|lra|lra|]. exists T.
  destruct (loop_vec_q false T (fun g q n => - lr (count_at n) * adam_dir b1 b2 eps er g n - lr (count_at n) * wd * q n) HE p gs Wp Fp Hg) as (s0 & qs & sf & Ei & El & Hl & Hq & Hs). exists s0, qs, sf. repeat (split; [assumption|]).
  intros j t Hj. induction t as [|t IH]; intros Ht; [cbn [nth]; apply Rmax_l|].
  nx. pose proof (Hs j t Hj ltac:(lia)) as E. cbn beta in E. unfold pt in E. nx. rewrite E. specialize (IH ltac:(lia)). nx.
  set (x := nth j (rvals (nth t (p :: qs) p)) 0) in *. set (g := fun k => nth j (rvals (nth k gs p)) 0) in *. pose proof (adam_dir_max b1 b2 eps er g t H1 H2 H12 He Hr) as B. pose proof (Hlr (count_at t)) as B2. set (u := adam_dir _ _ _ _ _ _) in *. set (l := lr (count_at t)) in *.
  set (U := adam_max b1 b2) in *. set (R0 := Rmax _ _) in *. assert (HU : U <= wd * R0). { pose proof (Rmax_r (Rabs (nth j (rvals p) 0)) (U / wd)) as B3. fold R0 in B3. apply Rle_trans with (wd * (U / wd)); [right; field; lra|]. apply Rmult_le_compat_l; lra. }
  replace (x + (- l * u - l * wd * x)) with ((1 - l * wd) * x + - (l * u)) by ring. eapply Rle_trans; [apply Rabs_triang|]. rewrite Rabs_Ropp, !Rabs_mult, (Rabs_right l), (Rabs_right (1 - l * wd)) by lra.
  assert ((1 - l * wd) * Rabs x <= (1 - l * wd) * R0) by (apply Rmult_le_compat_l; lra). assert (l * Rabs u <= l * (wd * R0)) by (apply Rmult_le_compat_l; lra). lra.
Qed.
(*@ex C83_example *)
Lemma adam_diverges_example : forall `{P : Platform}, let p := Leaf (mkT F32 [2%nat] [Fin 5; Fin 1]) in
  exists N T s0 qs sf, (2 <= N)%nat /\ rsum (map (cyc N) (seq 0 N)) = 1 /\ adam (LConst (Fin (1/1000))) (Fin (9/10)) (Fin (999/1000)) (Fin (1/100000000)) (Fin 0) = Ok T /\ init T p = Ok s0 /\
    train_loop T s0 p (map (fun i => cyc_grad N i p) (seq 0 (100 * N))) = Ok (qs, sf) /\ 6 <= nth 0 (rvals (nth (100 * N) (p :: qs) p)) 0 /\ 2 <= nth 1 (rvals (nth (100 * N) (p :: qs) p)) 0.
Proof.
  intros P p. destruct (@adam_diverges P (1/1000) (9/10) (999/1000) (1/100000000) 0 10) as (N & HN & Hs & H); [lra..|]. destruct (H p 100%nat) as ((T & s0 & qs & sf & ET & Ei & El & _ & _ & Hx) & _); [repeat constructor|repeat constructor; eexists; reflexivity|].
  exists N, T, s0, qs, sf. repeat (split; [assumption|]). pose proof (Hx 0%nat 100%nat ltac:(cbn; lia) ltac:(lia)) as A. pose proof (Hx 1%nat 100%nat ltac:(cbn; lia) ltac:(lia)) as B. nx. replace (INR 100) with 100 in * by (rewrite INR_IZR_INZ; reflexivity). change (rvals p) with [5; 1] in *. change (nth 0 [5; 1] 0) with 5 in A. change (nth 1 [5; 1] 0) with 1 in B. split; lra.
Qed.
(*@ex C84_example *)
Lemma adamw_bounded_example : forall `{P : Platform}, let p := Leaf (mkT F32 [2%nat] [Fin 5; Fin 1]) in forall N n,
  exists T s0 qs sf, adamw (LConst (Fin (1/1000))) (Fin (1/2)) (Fin (3/4)) (Fin (1/100000000)) (Fin 0) (Fin (1/10)) = Ok T /\ init T p = Ok s0 /\
    train_loop T s0 p (map (fun i => cyc_grad N i p) (seq 0 n)) = Ok (qs, sf) /\ forall t, (t <= n)%nat -> Rabs (nth 0 (rvals (nth t (p :: qs) p)) 0) <= 25.
Proof.
  intros P p N n. assert (Wp : trwf p) by repeat constructor. destruct (@adamw_bounded P (@LConst (XROps P) (Fin (1/1000))) (fun _ => 1/1000) (1/2) (3/4) (1/100000000) 0 (1/10) p (map (fun i => cyc_grad N i p) (seq 0 n))) as (T & s0 & qs & sf & ET & Ei & El & _ & _ & Hx);
    [reflexivity|intros _; lra|lra|lra|lra|lra|lra|lra|exact Wp|repeat constructor; eexists; reflexivity|apply Forall_forall; intros u Hu; apply in_map_iff in Hu as (i & <- & _); now apply cyc_grad_ok|].
  exists T, s0, qs, sf. repeat (split; [assumption|]). intros t Ht. pose proof (Hx 0%nat t ltac:(cbn; lia) ltac:(rewrite map_length, seq_length; exact Ht)) as A. nx. eapply Rle_trans; [exact A|]. change (rvals p) with [5; 1]. cbn [nth].
  apply Rmax_lub; [rewrite Rabs_right; lra|]. unfold adam_max. replace ((1 - 3/4) * (1 - 1/2 * (1/2) / (3/4))) with (/ 6) by field. rewrite inv_sqrt_depr, Rinv_inv by lra.
  assert (sqrt 6 <= 5/2); [|lra]. rewrite <- (sqrt_square (5/2)) by lra. apply sqrt_le_1_alt. lra.
Qed.
