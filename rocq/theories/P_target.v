(** Target copies kept with incremental_update and periodic_update (C105). *)
From Verif Require Export P_budget.
From Coq Require Import List Psatz Reals Qreals.
Import ListNotations.
Open Scope R_scope.
(*@header
From Coq Require Import List Reals ZArith.
Import ListNotations.
Open Scope R_scope.
*)

(** ** Specification *)
(** The copy after n calls incremental_update(online i, copy, s), i < n, is [polyak copy0 (map online (seq 0 n)) s] (see C10); the copy after the calls periodic_update(online i, copy, i, k), i < n, is [maintain k 0 copy0 (map online (seq 0 n))] (see C11). *)
(** f is convex on the vectors of length N. *)
Definition convex_on (N : nat) (f : list R -> R) : Prop := forall a x y, 0 <= a <= 1 -> length x = N -> length y = N -> f (map (fun i => a * nth i x 0 + (1 - a) * nth i y 0) (seq 0 N)) <= a * f x + (1 - a) * f y.

(** ** Proofs *)
Section Copies.
  Context {P : Platform}.
  Notation xr := (XROps P).
  Variables (old : tree (gt XR)) (online : nat -> tree (gt XR)) (s : R).
  Hypotheses (Wo : trwf old) (Hon : forall n, @like xr old (online n)).
  Lemma polyak_app (news : list (tree (gt XR))) : forall o n, @polyak xr o (news ++ [n]) (Fin s) = let* c := @polyak xr o news (Fin s) in @incremental_update xr n c (Fin s).
  Proof. induction news as [|a news IH]; intros o n; cbn [app polyak rbind]; [nx; destruct (@incremental_update xr n o (Fin s)); reflexivity|]. nx. destruct (@incremental_update xr a o (Fin s)); cbn [rbind]; [apply IH|reflexivity]. Qed.
  Lemma copies : exists r : nat -> tree (gt XR), r 0%nat = old /\ (forall n, @polyak xr old (map online (seq 0 n)) (Fin s) = Ok (r n) /\ @like xr old (r n)) /\
    forall n pos x y, elt (online n) pos = Some (Fin x) -> elt (r n) pos = Some (Fin y) -> elt (r (S n)) pos = Some (Fin (s * x + (1 - s) * y)).
  Proof.
    assert (HF : forall n, Forall (@like xr old) (map online (seq 0 n))) by (intros n; apply Forall_map, Forall_forall; intros i _; apply Hon).
    exists (fun n => match @polyak xr old (map online (seq 0 n)) (Fin s) with Ok r => r | Err _ => old end). split; [reflexivity|].
    assert (A : forall n, exists r, @polyak xr old (map online (seq 0 n)) (Fin s) = Ok r /\ @like xr old r) by (intros n; destruct (polyak_run s (map online (seq 0 n)) old Wo (HF n)) as (r & E & L & _); eauto).
    split; [intros n; destruct (A n) as (r & E & L); rewrite E; auto|]. intros n pos x y Hx Hy. destruct (A n) as (r & E & Lr). rewrite E in Hy. rewrite seq_S, map_app. cbn [map Nat.add]. rewrite polyak_app, E. cbn [rbind].
    destruct (Hon n) as (An & Wn). destruct Lr as (Ar & Wr). destruct (incremental_spec (online n) r s (eq_trans An (eq_sym Ar)) Wn Wr) as (r' & E' & _ & H). rewrite E'. destruct (H pos x y Hx Hy) as (v & Ev & -> & _). exact Ev.
  Qed.
End Copies.
Lemma ema_lag (s d D : R) (x v : nat -> R) (N : nat) : 0 < s <= 1 -> 0 <= d -> (forall i, (i < N)%nat -> v (S i) = s * x i + (1 - s) * v i) -> Rabs (v 0%nat - x 0%nat) <= D -> (forall i, (S i < N)%nat -> Rabs (x (S i) - x i) <= d) ->
  forall n, (n < N)%nat -> Rabs (v (S n) - x n) <= (1 - s) ^ S n * D + d * ((1 - s) / s).
Proof.
  intros Hs Hd HS H0 Hx n. assert (Hds : 0 <= d * ((1 - s) / s)) by (apply Rmult_le_pos; [exact Hd|]; apply Rmult_le_pos; [lra|left; apply Rinv_0_lt_compat; lra]). induction n as [|n IH]; intros Hn.
  - rewrite HS by lia. replace (s * x 0%nat + (1 - s) * v 0%nat - x 0%nat) with ((1 - s) * (v 0%nat - x 0%nat)) by ring. rewrite Rabs_mult, (Rabs_right (1 - s)) by lra. cbn [pow]. assert ((1 - s) * Rabs (v 0%nat - x 0%nat) <= (1 - s) * D) by (apply Rmult_le_compat_l; lra). lra.
  - specialize (IH ltac:(lia)). rewrite HS by lia. replace (s * x (S n) + (1 - s) * v (S n) - x (S n)) with ((1 - s) * ((v (S n) - x n) - (x (S n) - x n))) by ring. rewrite Rabs_mult, (Rabs_right (1 - s)) by lra.
    assert (T : Rabs (v (S n) - x n - (x (S n) - x n)) <= (1 - s) ^ S n * D + d * ((1 - s) / s) + d). { unfold Rminus at 1. eapply Rle_trans; [apply Rabs_triang|]. rewrite Rabs_Ropp. specialize (Hx n Hn). lra. }
    apply (Rmult_le_compat_l (1 - s)) in T; [|lra]. eapply Rle_trans; [exact T|]. right. cbn [pow]. field. lra.
Qed.
(*@ C105_lag : A copy kept with incremental_update(step_size s), 0 < s <= 1: if no online element moves by more than d per step, the copy is within (1-s)^(n+1) D + d (1-s)/s of the online value after n+1 calls, D being the initial distance: the lag is at most d (1-s)/s in the long run, 199 steps for s = 0.005. *)
Lemma copy_lag : forall `{P : Platform} (old : tree tensor) (online : nat -> tree tensor) (s d D : R), trwf old -> (forall n, like old (online n)) -> 0 < s <= 1 -> 0 <= d ->
  exists r : nat -> tree tensor, (forall n, polyak old (map online (seq 0 n)) (Fin s) = Ok (r n) /\ like old (r n)) /\
    forall pos y0 (x : nat -> R), elt old pos = Some (Fin y0) -> (forall n, elt (online n) pos = Some (Fin (x n))) -> Rabs (y0 - x 0%nat) <= D -> (forall n, Rabs (x (S n) - x n) <= d) ->
      forall n, exists v, elt (r (S n)) pos = Some (Fin v) /\ Rabs (v - x n) <= (1 - s) ^ S n * D + d * ((1 - s) / s).
Proof.
  intros P old online s d D Wo Hon Hs Hd. destruct (copies old online s Wo Hon) as (r & R0 & Hr & HS). exists r. split; [exact Hr|]. intros pos y0 x Hy Hx HD Hxd n. nx.
  set (v := fix v n := match n with O => y0 | S k => s * x k + (1 - s) * v k end). assert (Hv : forall k, elt (r k) pos = Some (Fin (v k))) by (intros k; induction k as [|k IH]; [rewrite R0; exact Hy|apply (HS k pos _ _ (Hx k) IH)]).
  exists (v (S n)). split; [apply Hv|]. apply (ema_lag s d D x v (S n) Hs Hd); [reflexivity|exact HD|intros i _; apply Hxd|lia].
Qed.
(*@ C105_converges : If an online element converges, so does the copy kept with any step_size 0 < s <= 1, to the same limit, whatever the copy started from. *)
Lemma copy_converges : forall `{P : Platform} (old : tree tensor) (online : nat -> tree tensor) (s : R), trwf old -> (forall n, like old (online n)) -> 0 < s <= 1 ->
  exists r : nat -> tree tensor, (forall n, polyak old (map online (seq 0 n)) (Fin s) = Ok (r n)) /\
    forall pos y0 (x : nat -> R) (l : R), elt old pos = Some (Fin y0) -> (forall n, elt (online n) pos = Some (Fin (x n))) -> Un_cv x l -> exists v, (forall n, elt (r n) pos = Some (Fin (v n))) /\ Un_cv v l.
Proof.
  intros P old online s Wo Hon Hs. destruct (copies old online s Wo Hon) as (r & R0 & Hr & HS). exists r. split; [intros n; apply Hr|]. intros pos y0 x l Hy Hx Hl. nx.
  set (v := fix v n := match n with O => y0 | S k => s * x k + (1 - s) * v k end). exists v. split; [intros k; induction k as [|k IH]; [rewrite R0; exact Hy|apply (HS k pos _ _ (Hx k) IH)]|].
  intros eps He. destruct (Hl (eps / 2) ltac:(lra)) as (N & HN).
  assert (G : forall k, Rabs (v (N + k)%nat - l) <= (1 - s) ^ k * Rabs (v N - l) + eps / 2).
  { intros k. induction k as [|k IH]; [rewrite Nat.add_0_r; cbn; lra|]. rewrite Nat.add_succ_r. cbn [v]. fold v. specialize (HN (N + k)%nat ltac:(lia)). unfold R_dist in HN. replace (s * x (N + k)%nat + (1 - s) * v (N + k)%nat - l) with (s * (x (N + k)%nat - l) + (1 - s) * (v (N + k)%nat - l)) by ring.
    eapply Rle_trans; [apply Rabs_triang|]. rewrite !Rabs_mult, (Rabs_right s), (Rabs_right (1 - s)) by lra. cbn [pow]. nra. }
  assert (Hp : Rabs (1 - s) < 1) by (rewrite Rabs_right; lra). set (A := Rabs (v N - l)). assert (HA : 0 <= A) by apply Rabs_pos. destruct (pow_lt_1_zero (1 - s) Hp (eps / (2 * (A + 1))) ltac:(apply Rdiv_lt_0_compat; lra)) as (K & HK).
  exists (N + K)%nat. intros n Hn. unfold R_dist. replace n with (N + (n - N))%nat by lia. specialize (G (n - N)%nat). specialize (HK (n - N)%nat ltac:(lia)). rewrite Rabs_right in HK by (apply Rle_ge, pow_le; lra).
  apply (Rmult_lt_compat_r (A + 1)) in HK; [|lra]. replace (eps / (2 * (A + 1)) * (A + 1)) with (eps / 2) in HK by (field; lra). fold A in G. pose proof (pow_le (1 - s) (n - N) ltac:(lra)). nra.
Qed.
(*@ C105_jensen : The loss of the copy: for every convex f and 0 <= s <= 1, f at the copy after n calls is at most (1-s)^n f(copy_0) + s sum_{i<n} (1-s)^(n-1-i) f(online_i), the same average of the losses of the online parameters. *)
Lemma copy_jensen : forall `{P : Platform} (old : tree tensor) (online : nat -> tree tensor) (f : list R -> R) (s : R), trwf old -> finite_tree old -> (forall n, point_of old (online n)) -> convex_on (length (rvals old)) f -> 0 <= s <= 1 ->
  forall n, exists r, polyak old (map online (seq 0 n)) (Fin s) = Ok r /\ point_of old r /\ f (rvals r) <= (1 - s) ^ n * f (rvals old) + s * rsumn (fun i => (1 - s) ^ (n - 1 - i) * f (rvals (online i))) n.
Proof.
  intros P old online f s Wo Fo Hon Hf Hs n. destruct (copies old online s Wo (fun n => proj1 (Hon n))) as (r & R0 & Hr & HS). exists (r n). split; [apply Hr|].
  assert (Pr : forall k, point_of old (r k)).
  { intros k. induction k as [|k IH]; [rewrite R0; split; [split; [reflexivity|exact Wo]|exact Fo]|]. split; [apply Hr|]. apply finite_of_elts. intros pos x Ex. destruct (Hr (S k)) as (_ & Ak & Wk). destruct IH as ((Ar & Wr) & Fr). destruct (Hon k) as ((Ao & Wo') & Fo').
    assert (N1 : elt (r k) pos <> None) by (apply (elt_like (r k) (r (S k)) pos (eq_trans Ak (eq_sym Ar)) Wr Wk); rewrite Ex; discriminate). assert (N2 : elt (online k) pos <> None) by (apply (elt_like (online k) (r (S k)) pos (eq_trans Ak (eq_sym Ao)) Wo' Wk); rewrite Ex; discriminate).
    destruct (elt (r k) pos) as [y|] eqn:Ey; [|easy]. destruct (elt (online k) pos) as [z|] eqn:Ez; [|easy]. destruct (finite_elt (r k) pos y Fr Ey) as (y' & ->). destruct (finite_elt (online k) pos z Fo' Ez) as (z' & ->). pose proof (HS k pos z' y' Ez Ey) as E. pose proof (eq_trans (eq_sym Ex) E) as E2. injection E2 as ->. eexists; reflexivity. }
  split; [apply Pr|]. rewrite <- (ema_list_closed s (f (rvals old)) (fun i => f (rvals (online i))) n). nx. induction n as [|n IH]; [rewrite R0; cbn; lra|]. rewrite seq_S, map_app. cbn [map Nat.add]. rewrite ema_list_snoc.
  assert (E : rvals (r (S n)) = map (fun i => s * nth i (rvals (online n)) 0 + (1 - s) * nth i (rvals (r n)) 0) (seq 0 (length (rvals old)))).
  { rewrite (map_seq_nth (rvals (r (S n)))), (rvals_length old (r (S n)) Wo (Pr _)). apply map_ext_in. intros i Hi. apply in_seq in Hi. destruct (coord old i Wo ltac:(lia)) as (pos & Hpos). pose proof (HS n pos _ _ (Hpos _ (Hon n)) (Hpos _ (Pr n))) as E. pose proof (eq_trans (eq_sym (Hpos _ (Pr (S n)))) E) as E2. now injection E2. }
  rewrite E. eapply Rle_trans; [apply Hf; [exact Hs|exact (rvals_length old (online n) Wo (Hon n))|exact (rvals_length old (r n) Wo (Pr n))]|]. assert ((1 - s) * f (rvals (r n)) <= (1 - s) * ema_list s (f (rvals old)) (map (fun i => f (rvals (online i))) (seq 0 n))) by (apply Rmult_le_compat_l; [lra|exact IH]). lra.
Qed.
(*@ C105_periodic : A copy kept with periodic_update(update_period k), k >= 1, at steps 0, 1, 2, ... is at step n the online parameters of step n - (n mod k): exactly, in any arithmetic. *)
Lemma periodic_copy : forall `{O : Ops} (k n : nat) (target : tree tensor) (online : nat -> tree tensor), (1 <= k)%nat -> (forall i, avals (online i) = avals target) ->
  maintain (Z.of_nat k) 0 target (map online (seq 0 (S n))) = Ok (online (n - n mod k)%nat).
Proof.
  intros O k n target online Hk Hon. destruct (periodic_spec (Z.of_nat k) 0 target (map online (seq 0 (S n)))) as (r & E & _ & H); [lia|apply Forall_map, Forall_forall; auto|]. rewrite E. f_equal. pose proof (Nat.div_mod n k ltac:(lia)) as Dm. pose proof (Nat.mod_upper_bound n k ltac:(lia)) as Mb.
  apply (H (n - n mod k)%nat).
  - rewrite nth_error_map, (nth_error_nth' _ 0%nat) by (rewrite seq_length; lia). rewrite seq_nth by lia. reflexivity.
  - rewrite Z.add_0_l. replace (n - n mod k)%nat with (n / k * k)%nat by lia. rewrite Nat2Z.inj_mul. apply Z.mod_mul. lia.
  - intros j Hj. rewrite map_length, seq_length in Hj. rewrite Z.add_0_l, <- Nat2Z.inj_mod. intros Hc. assert (Hc' : (j mod k = 0)%nat) by lia. apply Nat.mod_divides in Hc' as (c & Hc'); [|lia]. assert (n / k < c)%nat by nia. nia.
Qed.
(*@ C105_guarded : End to end: train with any optimiser of this library behind zero_nans, clip(c) and learning rates of magnitude at most A, on any gradients (NaN included), and keep a copy with incremental_update(s), 0 < s <= 1, from the start: nothing ever fails and every element of the copy is at every step within c A (1-s)/s of the online parameters. *)
Lemma guarded_copy : forall `{P : Platform} (np : bool) (T : GT) (p : tree tensor) (c s A : R) (L : lrate) (lr : Z -> R) (grad : nat -> tree tensor -> tree tensor), pipeline np p T -> trwf p -> finite_tree p -> 0 <= c -> (forall z, rate L z = Fin (lr z)) -> (forall i q, point_of p q -> like p (grad i q)) ->
  0 < s <= 1 -> (forall z, Rabs (lr z) <= A) ->
  exists Tg (x r : nat -> tree tensor), guarded T c L = Ok Tg /\ (forall n, exists st, fit Tg grad n p = Ok (x n, st)) /\ (forall n, polyak p (map x (seq 0 n)) (Fin s) = Ok (r n)) /\
    forall n i, (i < length (rvals p))%nat -> Rabs (nth i (rvals (r (S n))) 0 - nth i (rvals (x n)) 0) <= c * A * ((1 - s) / s).
Proof.
  intros P np T p c s A L lr grad HT Wp Fp Hc HL Hg Hs HA. destruct (guarded_budget np T p c L lr grad HT Wp Fp Hc HL Hg) as (Tg & x & ET & E0 & Hf & Hp & Hb). assert (A0 : 0 <= A) by (eapply Rle_trans; [apply Rabs_pos|apply (HA 0%Z)]).
  destruct (copy_lag p x s (c * A) 0 Wp (fun n => proj1 (Hp n)) Hs ltac:(apply Rmult_le_pos; lra)) as (r & Hr & Hlag). exists Tg, x, r. split; [exact ET|]. split; [exact Hf|]. split; [intros n; apply Hr|]. intros n i Hi. destruct (coord p i Wp Hi) as (pos & Hpos). nx.
  destruct (Hlag pos (nth i (rvals p) 0) (fun k => nth i (rvals (x k)) 0)) with (n := n) as (v & Ev & Hv).
  - pose proof (Hp 0%nat) as H0. rewrite E0 in H0. apply (Hpos p H0).
  - intros k. apply (Hpos _ (Hp k)).
  - cbn beta. rewrite E0, Rminus_diag_eq, Rabs_R0 by reflexivity. lra.
  - intros k. cbn beta. pose proof (Hb k (S k) i ltac:(lia) Hi) as H. rewrite budget_S, budget_diag in H by lia. eapply Rle_trans; [exact H|]. rewrite Rplus_0_l. apply Rmult_le_compat_l; [exact Hc|apply HA].
  - cbn beta in Hv. rewrite Rmult_0_r, Rplus_0_l in Hv.
    assert (Fr : point_of p (r (S n))). { destruct (copy_jensen p x (fun _ => 0) s Wp Fp Hp ltac:(intros ? ? ? ? ? ?; lra) ltac:(lra) (S n)) as (r' & E' & Pr' & _). destruct (Hr (S n)) as (E'' & _). pose proof (Ok_inj _ _ (eq_trans (eq_sym E'') E')) as <-. exact Pr'. }
    pose proof (eq_trans (eq_sym (Hpos _ Fr)) Ev) as E. injection E as E. rewrite E. exact Hv.
Qed.
(*@ex C105_example *)
Lemma target_example : forall `{P : Platform}, let p := Leaf (mkT F32 [2%nat] [Fin 2; Fin 3]) in
  (exists Tg (x r : nat -> tree tensor), guarded identity 1 (LConst (Fin (1/100))) = Ok Tg /\ (forall n, exists st, fit Tg (fun _ _ => Leaf (mkT F32 [2%nat] [NaN; Fin 5])) n p = Ok (x n, st)) /\ (forall n, polyak p (map x (seq 0 n)) (Fin (1/10)) = Ok (r n)) /\
    forall n i, (i < 2)%nat -> Rabs (nth i (rvals (r (S n))) 0 - nth i (rvals (x n)) 0) <= 9 / 100) /\
  (forall online, (forall i, avals (online i) = avals p) -> maintain 3 0 p (map online (seq 0 6)) = Ok (online 3%nat)) /\
  convex_on 2 (fun v => nth 0 v 0 * nth 0 v 0).
Proof.
  intros P p. assert (Wp : trwf p) by repeat constructor. assert (Fp : finite_tree p) by (repeat constructor; eexists; reflexivity). split; [|split].
  - destruct (@guarded_copy P true identity p 1 (1/10) (1/100) (@LConst (XROps P) (Fin (1/100))) (fun _ => 1/100) (fun _ _ => Leaf (mkT F32 [2%nat] [NaN; Fin 5])) (@pl_elementwise (XROps P) true p _ ew_identity) Wp Fp ltac:(lra) (fun _ => eq_refl) ltac:(intros; repeat constructor) ltac:(lra) ltac:(intros; rewrite Rabs_right; lra)) as (Tg & x & r & E & Hf & Hr & H).
    exists Tg, x, r. split; [exact E|]. split; [exact Hf|]. split; [exact Hr|]. intros n i Hi. eapply Rle_trans; [apply (H n i Hi)|]. lra.
  - intros online Ho. exact (@periodic_copy (XROps P) 3 5 p online ltac:(lia) Ho).
  - intros a x y Ha Hx Hy. cbn [seq map nth]. generalize (nth 0 x 0), (nth 0 y 0). intros u v. pose proof (Rmult_le_pos (a * (1 - a)) ((u - v) * (u - v)) ltac:(apply Rmult_le_pos; lra) (Rle_0_sqr (u - v))). lra.
Qed.
