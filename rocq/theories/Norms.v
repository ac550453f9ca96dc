(** Euclidean norms of lists of reals. *)
From Verif Require Export P_real.
From Coq Require Import Psatz Permutation.
Open Scope R_scope.

Definition sumsq (l : list R) : R := rsum (map (fun x => x * x) l).
Lemma rsum_nil : rsum [] = 0. Proof. reflexivity. Qed.
Lemma rsum_cons a l : rsum (a :: l) = a + rsum l. Proof. reflexivity. Qed.
Lemma rsum_app l m : rsum (l ++ m) = rsum l + rsum m.
Proof. induction l as [|a l IH]; cbn [app]; rewrite ?rsum_cons, ?rsum_nil; [lra|]. rewrite IH. lra. Qed.
Lemma rsum_scal c l : rsum (map (Rmult c) l) = c * rsum l.
Proof. induction l as [|a l IH]; cbn [map]; rewrite ?rsum_cons, ?rsum_nil; [lra|]. rewrite IH. lra. Qed.
Lemma rsum_perm l m : Permutation l m -> rsum l = rsum m.
Proof. induction 1; rewrite ?rsum_cons in *; try lra. Qed.
Lemma rsum_nonneg l : Forall (fun x => 0 <= x) l -> 0 <= rsum l.
Proof. induction 1 as [|a l Ha Hl IH]; rewrite ?rsum_cons, ?rsum_nil; lra. Qed.
Lemma rsum_le l m : Forall2 Rle l m -> rsum l <= rsum m.
Proof. induction 1; rewrite ?rsum_cons, ?rsum_nil; lra. Qed.
Lemma rsum_map_ext {A} (f g : A -> R) l : (forall a, In a l -> f a = g a) -> rsum (map f l) = rsum (map g l).
Proof. intros H. f_equal. now apply map_ext_in. Qed.
Lemma rsum_map_scal {A} c (f : A -> R) l : rsum (map (fun a => c * f a) l) = c * rsum (map f l).
Proof. induction l as [|a l IH]; cbn [map]; rewrite ?rsum_cons, ?rsum_nil; [lra|]. rewrite IH. lra. Qed.
Lemma rsum_map_add {A} (f g : A -> R) l : rsum (map (fun a => f a + g a) l) = rsum (map f l) + rsum (map g l).
Proof. induction l as [|a l IH]; cbn [map]; rewrite ?rsum_cons, ?rsum_nil; [lra|]. rewrite IH. lra. Qed.
Lemma rsum_map_const {A} c (l : list A) : rsum (map (fun _ => c) l) = INR (length l) * c.
Proof. induction l as [|a l IH]; cbn [map length]; rewrite ?rsum_cons, ?rsum_nil; [cbn; lra|]. rewrite IH, S_INR. lra. Qed.
Lemma rsum_map_le {A} (f g : A -> R) l : (forall a, In a l -> f a <= g a) -> rsum (map f l) <= rsum (map g l).
Proof.
  intros H. induction l as [|a l IH]; cbn [map]; rewrite ?rsum_cons, ?rsum_nil; [lra|].
  pose proof (H a (or_introl eq_refl)). assert (rsum (map f l) <= rsum (map g l)) by (apply IH; intros; apply H; now right). lra.
Qed.
Lemma rsum_abs l : Rabs (rsum l) <= rsum (map Rabs l).
Proof.
  induction l as [|a l IH]; cbn [map]; rewrite ?rsum_cons, ?rsum_nil; [rewrite Rabs_R0; lra|].
  eapply Rle_trans; [apply Rabs_triang|]. lra.
Qed.

Lemma sumsq_nonneg l : 0 <= sumsq l.
Proof. apply rsum_nonneg. apply Forall_map, Forall_forall. intros x _. nra. Qed.
Lemma sumsq_cons a l : sumsq (a :: l) = a * a + sumsq l. Proof. reflexivity. Qed.
Lemma sumsq_app l m : sumsq (l ++ m) = sumsq l + sumsq m.
Proof. unfold sumsq. now rewrite map_app, rsum_app. Qed.
Lemma sumsq_concat ls : sumsq (concat ls) = rsum (map sumsq ls).
Proof. induction ls as [|l ls IH]; cbn [concat map]; [reflexivity|]. now rewrite sumsq_app, rsum_cons, IH. Qed.
Lemma sumsq_0 l : sumsq l = 0 <-> Forall (fun x => x = 0) l.
Proof.
  induction l as [|a l IH]; [split; [constructor|reflexivity]|]. rewrite sumsq_cons. pose proof (sumsq_nonneg l). split.
  - intros E. assert (a * a = 0) by nra. constructor; [nra|]. apply IH. nra.
  - intros HF. inversion HF as [|? ? -> Hl]; subst. apply IH in Hl. rewrite Hl. lra.
Qed.
Lemma sumsq_scal c l : sumsq (map (Rmult c) l) = c * c * sumsq l.
Proof. unfold sumsq. rewrite map_map, <- rsum_map_scal, !map_map || idtac. induction l as [|a l IH]; cbn [map]; rewrite ?rsum_cons, ?rsum_nil; [lra|]. rewrite IH || idtac; lra. Qed.
Lemma norm2_sq l : norm2 l * norm2 l = sumsq l.
Proof. unfold norm2. apply sqrt_sqrt, sumsq_nonneg. Qed.
Lemma norm2_nonneg l : 0 <= norm2 l.
Proof. apply sqrt_pos. Qed.
Lemma norm2_0 l : norm2 l = 0 <-> Forall (fun x => x = 0) l.
Proof.
  rewrite <- sumsq_0. split; intros E.
  - pose proof (norm2_sq l) as H. rewrite E in H. lra.
  - unfold norm2. fold (sumsq l). rewrite E. apply sqrt_0.
Qed.
Lemma norm2_scal c l : norm2 (map (Rmult c) l) = Rabs c * norm2 l.
Proof.
  unfold norm2. fold (sumsq (map (Rmult c) l)) (sumsq l). rewrite sumsq_scal, sqrt_mult by (try apply sumsq_nonneg; nra).
  f_equal. apply sqrt_Rsqr_abs.
Qed.
Lemma norm2_perm l m : Permutation l m -> norm2 l = norm2 m.
Proof. intros H. unfold norm2. f_equal. apply rsum_perm. now apply Permutation_map. Qed.
Lemma norm2_le_of_sq l r : 0 <= r -> sumsq l <= r * r -> norm2 l <= r.
Proof. intros Hr H. unfold norm2. fold (sumsq l). rewrite <- (sqrt_square r Hr). now apply sqrt_le_1_alt. Qed.

(** Cauchy-Schwarz and the triangle inequality. *)
Definition dot (l m : list R) : R := rsum (map (fun p => fst p * snd p) (combine l m)).
Definition vadd (l m : list R) : list R := map (fun p => fst p + snd p) (combine l m).
Lemma dot_cons a b l m : dot (a :: l) (b :: m) = a * b + dot l m. Proof. reflexivity. Qed.
Lemma cauchy_schwarz l m : length l = length m -> dot l m * dot l m <= sumsq l * sumsq m.
Proof.
  revert m; induction l as [|a l IH]; intros [|b m]; try discriminate; [intros _; unfold dot, sumsq; cbn [combine map]; rewrite !rsum_nil; lra|].
  intros [= E]. specialize (IH m E). rewrite dot_cons, !sumsq_cons.
  pose proof (sumsq_nonneg l) as Hl. pose proof (sumsq_nonneg m) as Hm.
  set (D := dot l m) in *. set (A := sumsq l) in *. set (B := sumsq m) in *.
  (* 2abD <= a²B + b²A *)
  assert (H : 2 * (a * b) * D <= a * a * B + b * b * A).
  { assert (Hsq : (2 * (a * b) * D) * (2 * (a * b) * D) <= (a * a * B + b * b * A) * (a * a * B + b * b * A)).
    { assert (H1 : (2 * (a * b) * D) * (2 * (a * b) * D) <= 4 * (a * a * B) * (b * b * A)).
      { replace ((2 * (a * b) * D) * (2 * (a * b) * D)) with (4 * (a * a) * (b * b) * (D * D)) by ring.
        replace (4 * (a * a * B) * (b * b * A)) with (4 * (a * a) * (b * b) * (A * B)) by ring.
        apply Rmult_le_compat_l; [|exact IH]. pose proof (Rle_0_sqr a). pose proof (Rle_0_sqr b). unfold Rsqr in *. nra. }
      eapply Rle_trans; [exact H1|]. pose proof (Rle_0_sqr (a * a * B - b * b * A)) as H2. unfold Rsqr in H2. lra. }
    assert (0 <= a * a * B + b * b * A).
    { pose proof (Rle_0_sqr a). pose proof (Rle_0_sqr b). unfold Rsqr in *. nra. }
    apply Rsqr_incr_0_var; unfold Rsqr; assumption. }
  nra.
Qed.
Lemma dot_le l m : length l = length m -> dot l m <= norm2 l * norm2 m.
Proof.
  intros E. pose proof (cauchy_schwarz l m E) as H. pose proof (norm2_nonneg l). pose proof (norm2_nonneg m).
  apply Rsqr_incr_0_var; [|nra]. unfold Rsqr. eapply Rle_trans; [exact H|].
  rewrite <- !norm2_sq. right. ring.
Qed.
Lemma sumsq_vadd l m : length l = length m -> sumsq (vadd l m) = sumsq l + 2 * dot l m + sumsq m.
Proof.
  revert m; induction l as [|a l IH]; intros [|b m]; try discriminate; [intros _; unfold dot, sumsq, vadd; cbn [combine map]; rewrite !rsum_nil; lra|].
  intros [= E]. change (vadd (a :: l) (b :: m)) with ((a + b) :: vadd l m). rewrite !sumsq_cons, dot_cons, IH by assumption. ring.
Qed.
Lemma norm2_triangle l m : length l = length m -> norm2 (vadd l m) <= norm2 l + norm2 m.
Proof.
  intros E. pose proof (norm2_nonneg l). pose proof (norm2_nonneg m).
  apply norm2_le_of_sq; [lra|]. rewrite sumsq_vadd, <- !norm2_sq by assumption. pose proof (dot_le l m E). nra.
Qed.
