(** Schedules. *)
From Verif Require Export M_schedule P_norm.
From Coq Require Import Psatz Qreals Permutation Sorting.Sorted.
Open Scope R_scope.
(*@header
From Coq Require Import Permutation.
Open Scope R_scope.
*)

(** ** Vocabulary *)
(** x ^ p for x >= 0 and p >= 0 (0 ^ 0 = 1). *)
Definition rpow (x p : R) : R := if Req_EM_T p 0 then 1 else if Req_EM_T x 0 then 0 else Rpower x p.
Definition rprod (l : list R) : R := fold_right Rmult 1 l.
Definition fitem (x : Z * R) : Z * XR := (fst x, Fin (snd x)).

Lemma rpow_1 x : 0 <= x -> rpow x 1 = x.
Proof. intros H. unfold rpow. destruct (Req_EM_T 1 0); [lra|]. destruct (Req_EM_T x 0) as [->|]; [reflexivity|]. apply Rpower_1. lra. Qed.
Lemma rpow_one p : rpow 1 p = 1.
Proof. unfold rpow. destruct (Req_EM_T p 0); [reflexivity|]. destruct (Req_EM_T 1 0); [lra|]. unfold Rpower. rewrite ln_1, Rmult_0_r. apply exp_0. Qed.
Lemma rpow_zero p : 0 < p -> rpow 0 p = 0.
Proof. intros H. unfold rpow. destruct (Req_EM_T p 0); [lra|]. now destruct (Req_EM_T 0 0). Qed.
Lemma rpow_nonneg x p : 0 <= rpow x p.
Proof. unfold rpow. destruct (Req_EM_T p 0); [lra|]. destruct (Req_EM_T x 0); [lra|]. left. apply exp_pos. Qed.
Lemma rpow_mono x y p : 0 <= x <= y -> 0 <= p -> rpow x p <= rpow y p.
Proof.
  intros Hx Hp. unfold rpow. destruct (Req_EM_T p 0); [lra|]. destruct (Req_EM_T x 0); destruct (Req_EM_T y 0); try lra.
  - left. apply exp_pos.
  - apply Rle_Rpower_l; lra.
Qed.
Lemma rpow_le1 x p : 0 <= x <= 1 -> 0 <= p -> rpow x p <= 1.
Proof. intros. rewrite <- (rpow_one p). now apply rpow_mono. Qed.
Lemma xpow_nonneg x p : 0 <= x -> 0 <= p -> xpow (Fin x) (Fin p) = Fin (rpow x p).
Proof.
  intros Hx Hp. unfold rpow. destruct (Req_EM_T x 0) as [->|Hx0].
  - cbn. destruct (Req_EM_T p 0); [reflexivity|]. destruct (is_int p) as [m|] eqn:E.
    + apply is_int_Some in E. destruct (Req_EM_T 0 0); [|easy]. destruct (Z.ltb_spec m 0) as [Hn|]; [|reflexivity].
      apply IZR_lt in Hn. lra.
    + destruct (Rlt_dec 0 0); [lra|]. destruct (Req_EM_T 0 0); [|easy]. destruct (Rlt_dec p 0); [lra|reflexivity].
  - rewrite xpow_pos by lra. destruct (Req_EM_T p 0) as [->|]; [|reflexivity]. rewrite Rpower_O by lra. reflexivity.
Qed.

Section S.
  Context `{P : Platform}.
  Notation xr := (XROps P).
  Lemma zf_val z : @zf xr z = Fin (IZR z).
  Proof. unfold zf, fofZ. cbn [fcast flit XROps]. now rewrite Q2R_Z. Qed.
  Lemma fofZ_val z : @fofZ xr z = Fin (IZR z).
  Proof. unfold fofZ. cbn [flit XROps]. now rewrite Q2R_Z. Qed.

  (** ** polynomial *)
  Definition frac_of (steps begin c : Z) : R := 1 - IZR (clip_count (c - Z.max 0 begin) 0 steps) / IZR steps.
  Lemma frac_range steps begin c : (0 < steps)%Z -> 0 <= frac_of steps begin c <= 1.
  Proof.
    intros H. unfold frac_of. assert (Hs : 0 < IZR steps) by now apply IZR_lt.
    assert (H1 : 0 <= IZR (clip_count (c - Z.max 0 begin) 0 steps) <= IZR steps) by (unfold clip_count; split; apply IZR_le; lia).
    assert (0 <= IZR (clip_count (c - Z.max 0 begin) 0 steps) / IZR steps) by (apply Rdiv_nonneg; lra).
    assert (IZR (clip_count (c - Z.max 0 begin) 0 steps) / IZR steps <= 1) by (apply (Rmult_le_reg_r (IZR steps)); [lra|]; unfold Rdiv; rewrite Rmult_assoc, Rinv_l; lra). lra.
  Qed.
  Lemma poly_val i e p steps begin c : (0 < steps)%Z -> 0 <= p ->
    @polynomial_schedule xr (Fin i) (Fin e) (Fin p) steps begin c = Fin ((i - e) * rpow (frac_of steps begin c) p + e).
  Proof.
    intros Hs Hp. unfold polynomial_schedule. destruct (Z.leb_spec steps 0); [lia|]. rewrite !zf_val.
    assert (Eb : (if (begin <? 0)%Z then 0%Z else begin) = Z.max 0 begin) by (destruct (Z.ltb_spec begin 0); lia). rewrite Eb.
    change (@fcast xr (@defdt xr) (@fone xr)) with (@fone xr). rewrite (@f1 P). cbn [fcast fsub fdiv fadd fmul fpow XROps pysub].
    rewrite xdiv_fin by (apply not_0_IZR; lia). rewrite !xsub_fin.
    fold (frac_of steps begin c). rewrite xpow_nonneg by (try apply frac_range; assumption). reflexivity.
  Qed.
End S.

(*@ C39_polynomial_values : for every transition_steps > 0, begin and power > 0, polynomial_schedule is init_value up to max(begin,0), end_value from max(begin,0)+steps on, and (init-end)*(1-(count-begin)/steps)^power+end in between. *)
Lemma poly_values : forall `{P : Platform} (i e p : R) (steps begin c : Z), (0 < steps)%Z -> 0 < p ->
  let b := Z.max 0 begin in
  let v := polynomial_schedule (Fin i) (Fin e) (Fin p) steps begin c in
  ((c <= b)%Z -> v = Fin i) /\
  ((b + steps <= c)%Z -> v = Fin e) /\
  ((b <= c < b + steps)%Z -> v = Fin ((i - e) * Rpower (1 - IZR (c - b) / IZR steps) p + e)).
Proof.
  intros P i e p steps begin c Hs Hp b v. unfold v. rewrite poly_val by (lia || lra). unfold frac_of, clip_count. fold b.
  assert (Hs' : 0 < IZR steps) by now apply IZR_lt.
  split; [|split]; intros Hc.
  - replace (Z.min (Z.max (c - b) 0) steps) with 0%Z by lia. unfold Rdiv. rewrite Rmult_0_l, Rminus_0_r, rpow_one. f_equal. ring.
  - replace (Z.min (Z.max (c - b) 0) steps) with steps by lia. unfold Rdiv. rewrite Rinv_r by lra. replace (1 - 1) with 0 by ring. rewrite rpow_zero by assumption. f_equal. ring.
  - replace (Z.min (Z.max (c - b) 0) steps) with (c - b)%Z by lia. f_equal. f_equal. f_equal. unfold rpow.
    destruct (Req_EM_T p 0); [lra|]. destruct (Req_EM_T _ 0) as [E|]; [|reflexivity]. exfalso.
    assert (IZR (c - b) < IZR steps) by (apply IZR_lt; lia).
    assert (IZR (c - b) / IZR steps < 1) by (apply (Rmult_lt_reg_r (IZR steps)); [lra|]; unfold Rdiv; rewrite Rmult_assoc, Rinv_l; lra). lra.
Qed.

(*@ C39_polynomial_monotone : for every power >= 0 (and any steps, begin), the value always lies between init_value and end_value, and moves monotonically from the former towards the latter as the count grows. *)
Lemma poly_mono : forall `{P : Platform} (i e p : R) (steps begin : Z), 0 <= p ->
  exists f : Z -> R, (forall c, polynomial_schedule (Fin i) (Fin e) (Fin p) steps begin c = Fin (f c)) /\
    (forall c, Rmin i e <= f c <= Rmax i e) /\
    (forall c c', (c <= c')%Z -> (e <= i -> f c' <= f c) /\ (i <= e -> f c <= f c')).
Proof.
  intros P i e p steps begin Hp. destruct (Z_le_gt_dec steps 0) as [Hs|Hs].
  - exists (fun _ => i). split; [|split].
    + intros c. unfold polynomial_schedule. destruct (Z.leb_spec steps 0); [reflexivity|lia].
    + intros _. split; [apply Rmin_l|apply Rmax_l].
    + intros; lra.
  - exists (fun c => (i - e) * rpow (frac_of steps begin c) p + e). split; [intros; apply poly_val; lia || lra|]. split.
    + intros c. pose proof (frac_range steps begin c ltac:(lia)) as Hf. pose proof (rpow_nonneg (frac_of steps begin c) p). pose proof (rpow_le1 _ p Hf Hp).
      unfold Rmin, Rmax. destruct (Rle_dec i e); nra.
    + intros c c' Hc. assert (Hr : rpow (frac_of steps begin c') p <= rpow (frac_of steps begin c) p).
      { apply rpow_mono; [|assumption]. split; [apply frac_range; lia|]. unfold frac_of. apply Rplus_le_compat_l, Ropp_le_contravar.
        apply Rmult_le_compat_r; [left; apply Rinv_0_lt_compat, IZR_lt; lia|]. apply IZR_le. unfold clip_count. lia. }
      split; nra.
Qed.

(*@ C39_polynomial_degenerate : transition_steps <= 0 gives the constant init_value, a negative transition_begin behaves as 0, power 0 never leaves init_value (so end_value is not reached), and constant_schedule is constant; all with any arithmetic except the power-0 case. *)
Lemma poly_degenerate : forall `{P : Platform} (i e p : XR) (steps begin c : Z),
  ((steps <= 0)%Z -> polynomial_schedule i e p steps begin c = i) /\
  ((begin < 0)%Z -> polynomial_schedule i e p steps begin c = polynomial_schedule i e p steps 0 c) /\
  (forall i' e' : R, polynomial_schedule (Fin i') (Fin e') (Fin 0) steps begin c = Fin i') /\
  constant_schedule i c = i.
Proof.
  intros P i e p steps begin c. split; [|split; [|split]].
  - intros H. unfold polynomial_schedule. destruct (Z.leb_spec steps 0); [reflexivity|lia].
  - intros H. unfold polynomial_schedule. destruct (Z.leb_spec steps 0); [reflexivity|]. destruct (Z.ltb_spec begin 0); [reflexivity|lia].
  - intros i' e'. destruct (Z_le_gt_dec steps 0) as [Hs|Hs].
    + unfold polynomial_schedule. destruct (Z.leb_spec steps 0); [reflexivity|lia].
    + rewrite poly_val by (lia || lra). unfold rpow. destruct (Req_EM_T 0 0); [|easy]. f_equal. ring.
  - reflexivity.
Qed.

(*@ C39_linear : linear_schedule with steps > 0 is init + (end-init)*t/steps at offset t = count - max(begin,0) in [0, steps], init before and end after. *)
Lemma linear_values : forall `{P : Platform} (i e : R) (steps begin c : Z), (0 < steps)%Z ->
  linear_schedule (Fin i) (Fin e) steps begin c = Fin (i + (e - i) * (IZR (Z.min (Z.max 0 (c - Z.max 0 begin)) steps) / IZR steps)).
Proof.
  intros P i e steps begin c Hs. unfold linear_schedule. rewrite (@f1 P). rewrite poly_val by (lia || lra).
  rewrite rpow_1 by now apply frac_range. unfold frac_of, clip_count. rewrite (Z.max_comm _ 0). f_equal. ring.
Qed.
(*@ex C39_example *)
Lemma poly_example : forall `{P : Platform}, polynomial_schedule (Fin 10) (Fin 2) (Fin 2) 4%Z 3%Z 5%Z = Fin 4.
Proof.
  intros P. rewrite poly_val by (lia || lra). f_equal. unfold frac_of, rpow. replace (clip_count (5 - Z.max 0 3) 0 4) with 2%Z by reflexivity.
  destruct (Req_EM_T 2 0); [lra|]. destruct (Req_EM_T _ 0); [lra|]. replace (1 - 2 / 4) with (/2) by lra. replace 2 with (INR 2) at 3 by (cbn; lra). rewrite Rpower_pow by lra. cbn. lra.
Qed.

(** ** piecewise constant *)
Section PC.
  Context `{P : Platform}.
  Notation xr := (XROps P).
  Lemma pos_sign_val z : @pos_sign xr z = Fin (if (0 <? z)%Z then 1 else 0).
  Proof.
    unfold pos_sign. change (@fcast xr (@defdt xr) (@fzero xr)) with (@fzero xr). rewrite (@f0 P), fofZ_val. cbn [fcast fmax xmax XROps]. f_equal.
    destruct (Z.ltb_spec 0 z); [rewrite Z.sgn_pos by lia; apply Rmax_right; lra|]. apply Rmax_left.
    destruct (Z.eq_dec z 0) as [->|]; [cbn; lra|]. rewrite Z.sgn_neg by lia. lra.
  Qed.
  Lemma pc_step_val c v b f : @pc_step xr c (Fin v) (b, Fin f) = Fin (if (b <=? c)%Z then v * f else v).
  Proof.
    unfold pc_step. cbn [fst snd]. rewrite pos_sign_val. change (@fcast xr (@defdt xr) (@fone xr)) with (@fone xr). rewrite (@f1 P).
    cbn [fcast fadd fmul fsub XROps]. rewrite !xsub_fin, !xmul_fin, xadd_fin. f_equal.
    destruct (Z.ltb_spec 0 (b - c)), (Z.leb_spec b c); try lia; ring.
  Qed.
  Lemma insert_map (x : Z * R) l : insert_item (fitem x) (map fitem l) = map fitem (insert_item x l).
  Proof. induction l as [|y l IH]; cbn; [reflexivity|]. destruct (fst x <=? fst y)%Z; cbn; [reflexivity|]. now rewrite IH. Qed.
  Lemma sorted_map (l : list (Z * R)) : sorted_items (map fitem l) = map fitem (sorted_items l).
  Proof. unfold sorted_items. induction l as [|y l IH]; cbn; [reflexivity|]. now rewrite IH, insert_map. Qed.
End PC.
Lemma insert_perm {A} (x : Z * A) l : Permutation (x :: l) (insert_item x l).
Proof. induction l as [|y l IH]; cbn; [auto|]. destruct (fst x <=? fst y)%Z; [auto|]. rewrite perm_swap. now constructor. Qed.
Lemma sorted_perm {A} (l : list (Z * A)) : Permutation l (sorted_items l).
Proof. unfold sorted_items. induction l as [|y l IH]; cbn; [auto|]. rewrite <- insert_perm. now constructor. Qed.
Lemma rprod_perm l l' : Permutation l l' -> rprod l = rprod l'.
Proof. unfold rprod. induction 1 as [|x l l' H IH|x y l|l m n H1 IH1 H2 IH2]; cbn [fold_right]; [reflexivity|now rewrite IH|ring|now rewrite IH1]. Qed.
Lemma rprod_app l l' : rprod (l ++ l') = rprod l * rprod l'.
Proof. unfold rprod. induction l as [|x l IH]; cbn [fold_right app]; [ring|]. rewrite IH. ring. Qed.
Lemma filter_perm {A} (f : A -> bool) l l' : Permutation l l' -> Permutation (filter f l) (filter f l').
Proof.
  induction 1; cbn; auto.
  - destruct (f x); auto.
  - destruct (f x), (f y); auto. apply perm_swap.
  - now transitivity (filter f l').
Qed.

(*@ C40_piecewise_constant : for every dictionary of non-negative factors (written in any order) the schedule is built, and its value at every count is init_value times the product of the factors whose boundary is <= count. *)
Lemma pc_values : forall `{P : Platform} (init : R) (l : list (Z * R)), Forall (fun x => 0 <= snd x) l ->
  exists s, piecewise_constant_schedule (Fin init) (Some (map fitem l)) = Ok s /\
    forall c, s c = Fin (init * rprod (map snd (filter (fun x => (fst x <=? c)%Z) l))).
Proof.
  intros P init l Hl. unfold piecewise_constant_schedule.
  assert (E : forallb (fun x => @fle (XROps P) (@fzero (XROps P)) (snd x)) (map fitem l) = true).
  { apply forallb_forall. intros x Hx. apply in_map_iff in Hx as (y & <- & Hy). rewrite Forall_forall in Hl. rewrite (@f0 P). apply xle_fin. now apply Hl. }
  nx. rewrite E. eexists. split; [reflexivity|]. intros c. rewrite sorted_map.
  rewrite (rprod_perm _ (map snd (filter (fun x => (fst x <=? c)%Z) (sorted_items l)))) by (apply Permutation_map, filter_perm, sorted_perm).
  generalize (sorted_items l) as m. intros m. revert init. induction m as [|[b f] m IH]; intros init; cbn [map fold_left filter rprod fold_right].
  - f_equal. ring.
  - change (fitem (b, f)) with (b, Fin f). rewrite pc_step_val, IH. cbn [fst]. destruct (b <=? c)%Z; [|reflexivity]. f_equal. unfold rprod. cbn [map snd fold_right]. ring.
Qed.

(*@ C40_piecewise_constant_order : two ways of writing the same dictionary give the same schedule. *)
Lemma pc_order : forall `{P : Platform} (init : R) (l l' : list (Z * R)) s s', Permutation l l' ->
  piecewise_constant_schedule (Fin init) (Some (map fitem l)) = Ok s ->
  piecewise_constant_schedule (Fin init) (Some (map fitem l')) = Ok s' -> forall c, s c = s' c.
Proof.
  intros P init l l' s s' Hp E E' c.
  assert (Hl : Forall (fun x => 0 <= snd x) l).
  { unfold piecewise_constant_schedule in E. destruct (forallb _ _) eqn:Ef in E; [|discriminate]. rewrite forallb_forall in Ef.
    apply Forall_forall. intros x Hx. specialize (Ef (fitem x) (in_map _ _ _ Hx)). rewrite (@f0 P) in Ef. now apply xle_fin in Ef. }
  destruct (pc_values init l Hl) as (t & Et & Ht). destruct (pc_values init l') as (t' & Et' & Ht').
  { apply Forall_forall. intros x Hx. rewrite Forall_forall in Hl. apply Hl. apply Permutation_sym in Hp. eapply Permutation_in; eauto. }
  rewrite E in Et. injection Et as <-. rewrite E' in Et'. injection Et' as <-. rewrite Ht, Ht'. do 2 f_equal.
  apply rprod_perm, Permutation_map, filter_perm, Hp.
Qed.

(*@ C40_negative_factor : a negative (or NaN) factor makes the construction raise ValueError, whatever the arithmetic; no dictionary is the constant. *)
Lemma pc_negative : forall `{O : Ops} (init : F) (l : list (Z * F)),
  (Exists (fun x => fle fzero (snd x) = false) l -> piecewise_constant_schedule init (Some l) = Err EValue) /\
  exists s, piecewise_constant_schedule init None = Ok s /\ forall c, s c = init.
Proof.
  intros O init l. split; [|eexists; split; reflexivity]. intros H. unfold piecewise_constant_schedule.
  destruct (forallb _ _) eqn:E; [|reflexivity]. exfalso. rewrite forallb_forall in E. apply Exists_exists in H as (x & Hx & Hf). rewrite (E x Hx) in Hf. discriminate.
Qed.

(*@ex C40_example *)
Lemma pc_example : forall `{P : Platform}, exists s, piecewise_constant_schedule (Fin 8) (Some (map fitem [(7%Z, / 4); (3%Z, / 2)])) = Ok s /\
  s 2%Z = Fin 8 /\ s 3%Z = Fin 4 /\ s 9%Z = Fin 1.
Proof.
  intros P. destruct (pc_values 8 [(7%Z, / 4); (3%Z, / 2)]) as (s & E & Hs); [repeat constructor; cbn; lra|]. exists s. split; [exact E|]. rewrite !Hs.
  repeat split; f_equal; cbn; lra.
Qed.
(*@ C40_docstring_refuted : the docstring (factors with boundary strictly below the step) is false: with a factor 1/2 at 5 the value at step 5 is already halved. *)
Lemma pc_docstring : forall `{P : Platform}, exists s, piecewise_constant_schedule (Fin 8) (Some (map fitem [(5%Z, / 2)])) = Ok s /\
  s 4%Z = Fin 8 /\ s 5%Z = Fin 4 /\ 8 * rprod (map snd (filter (fun x => (fst x <? 5)%Z) [(5%Z, / 2)])) = 8.
Proof.
  intros P. destruct (pc_values 8 [(5%Z, / 2)]) as (s & E & Hs); [repeat constructor; cbn; lra|].
  exists s. split; [exact E|]. rewrite !Hs. cbn. repeat split; try (f_equal; lra).
Qed.

(** ** exponential decay *)
Definition exp_clip (r : R) (e : option R) (v : R) : R :=
  match e with None => v | Some e => if Rlt_dec r 1 then Rmax v e else Rmin v e end.
Definition exp_exponent (stair : bool) (t steps : Z) : R :=
  if stair then IZR (t / steps) else IZR t / IZR steps.
Lemma Int_part_div t steps : (0 < steps)%Z -> Int_part (IZR t / IZR steps) = (t / steps)%Z.
Proof.
  intros H. assert (Hs : 0 < IZR steps) by now apply IZR_lt. pose proof (Z.div_mod t steps ltac:(lia)) as E. pose proof (Z.mod_pos_bound t steps H) as B.
  assert (E' : IZR t / IZR steps = IZR (t / steps) + IZR (t mod steps) / IZR steps).
  { rewrite E at 1. rewrite plus_IZR, mult_IZR. field. lra. }
  rewrite E'. assert (0 <= IZR (t mod steps) / IZR steps < 1).
  { split; [apply Rdiv_nonneg; [apply IZR_le; lia|lra]|]. apply (Rmult_lt_reg_r (IZR steps)); [lra|]. unfold Rdiv. rewrite Rmult_assoc, Rinv_l by lra.
    assert (IZR (t mod steps) < IZR steps) by (apply IZR_lt; lia). lra. }
  unfold Int_part. rewrite <- (tech_up _ (t / steps + 1)); [lia| |]; rewrite plus_IZR; lra.
Qed.

(*@ C41_exponential_values : for steps > 0 and rate > 0, exponential_decay is (clipped by end_value: from below when rate < 1, from above otherwise) init_value up to max(begin,0) and init*rate^(t/steps) afterwards, t the offset from max(begin,0), with floor(t/steps) when staircase. *)
Lemma exp_values : forall `{P : Platform} (i r : R) (steps begin c : Z) (stair : bool) (e : option R), (0 < steps)%Z -> 0 < r ->
  exponential_decay (Fin i) steps (Fin r) begin stair (option_map Fin e) c =
  Fin (exp_clip r e (let t := (c - Z.max 0 begin)%Z in if (t <=? 0)%Z then i else i * Rpower r (exp_exponent stair t steps))).
Proof.
  intros P i r steps begin c stair e Hs Hr. unfold exponential_decay. destruct (Z.leb_spec steps 0); [lia|].
  rewrite (@f0 P), (@f1 P). assert (E0 : @feqb (XROps P) (Fin r) (Fin 0) = false) by (apply xeqb_fin_f; lra). rewrite E0.
  assert (Eb : (if (begin <? 0)%Z then 0%Z else begin) = Z.max 0 begin) by (destruct (Z.ltb_spec begin 0); lia). rewrite Eb.
  rewrite !zf_val. cbv zeta. cbn [fcast fdiv fmul fpow ffloor fmax fmin flt XROps]. rewrite xdiv_fin by (apply not_0_IZR; lia).
  set (t := (c - Z.max 0 begin)%Z).
  assert (Ep : (if stair then xfloor (Fin (IZR t / IZR steps)) else Fin (IZR t / IZR steps)) = Fin (exp_exponent stair t steps)).
  { unfold exp_exponent. destruct stair; [|reflexivity]. cbn [xfloor]. now rewrite Int_part_div. }
  nx. rewrite Ep, xpow_pos, xmul_fin by assumption.
  assert (Ev : (if (t <=? 0)%Z then Fin i else Fin (i * Rpower r (exp_exponent stair t steps))) = Fin (if (t <=? 0)%Z then i else i * Rpower r (exp_exponent stair t steps))) by now destruct (t <=? 0)%Z.
  rewrite Ev. destruct e as [e|]; cbn [option_map exp_clip]; [|reflexivity].
  destruct (Rlt_dec r 1) as [H1|H1].
  - assert (E1 : xlt (Fin r) (Fin 1) = true) by now apply xlt_fin. now rewrite E1.
  - assert (E1 : xlt (Fin r) (Fin 1) = false) by (apply xlt_fin_f; lra). now rewrite E1.
Qed.

Lemma exponent_mono stair t t' steps : (0 < steps)%Z -> (t <= t')%Z -> exp_exponent stair t steps <= exp_exponent stair t' steps.
Proof.
  intros Hs Ht. unfold exp_exponent. destruct stair; [apply IZR_le, Z.div_le_mono; lia|].
  apply Rmult_le_compat_r; [left; apply Rinv_0_lt_compat, IZR_lt; lia|now apply IZR_le].
Qed.
Lemma exponent_nonneg stair t steps : (0 < steps)%Z -> (0 <= t)%Z -> 0 <= exp_exponent stair t steps.
Proof.
  intros Hs Ht. unfold exp_exponent. destruct stair; [apply IZR_le, Z.div_pos; lia|]. apply Rdiv_nonneg; [now apply IZR_le|now apply IZR_lt].
Qed.
Lemma Rpower_dec r a b : 0 < r <= 1 -> a <= b -> Rpower r b <= Rpower r a.
Proof.
  intros Hr Hab. unfold Rpower. assert (ln r <= 0) by (rewrite <- ln_1; destruct (Req_EM_T r 1) as [->|]; [lra|left; apply ln_increasing; lra]).
  destruct (Req_EM_T (b * ln r) (a * ln r)) as [E|E]; [rewrite E; lra|]. left. apply exp_increasing. nra.
Qed.
Lemma Rpower_inc r a b : 1 <= r -> a <= b -> Rpower r a <= Rpower r b.
Proof.
  intros Hr Hab. unfold Rpower. assert (0 <= ln r) by (rewrite <- ln_1; destruct (Req_EM_T r 1) as [->|]; [lra|left; apply ln_increasing; lra]).
  destruct (Req_EM_T (a * ln r) (b * ln r)) as [E|E]; [rewrite E; lra|]. left. apply exp_increasing. nra.
Qed.
Lemma exp_clip_mono r e v w : v <= w -> exp_clip r e v <= exp_clip r e w.
Proof. intros H. unfold exp_clip. destruct e; [|assumption]. destruct (Rlt_dec r 1); unfold Rmax, Rmin; repeat destruct Rle_dec; lra. Qed.

(*@ C41_exponential_monotone : for init >= 0 the schedule is non-increasing in the count when 0 < rate <= 1 and non-decreasing when rate >= 1, with or without staircase and end_value. *)
Lemma exp_mono : forall `{P : Platform} (i r : R) (steps begin c c' : Z) (stair : bool) (e : option R) v v', (0 < steps)%Z -> 0 < r -> 0 <= i -> (c <= c')%Z ->
  exponential_decay (Fin i) steps (Fin r) begin stair (option_map Fin e) c = Fin v ->
  exponential_decay (Fin i) steps (Fin r) begin stair (option_map Fin e) c' = Fin v' ->
  (r <= 1 -> v' <= v) /\ (1 <= r -> v <= v').
Proof.
  intros P i r steps begin c c' stair e v v' Hs Hr Hi Hc. rewrite !exp_values by assumption. intros [= <-] [= <-]. cbv zeta.
  set (t := (c - Z.max 0 begin)%Z). set (t' := (c' - Z.max 0 begin)%Z). assert (Ht : (t <= t')%Z) by (unfold t, t'; lia).
  pose proof (exponent_mono stair t t' steps Hs Ht) as Hm.
  assert (H0 : forall s, (0 < s)%Z -> (r <= 1 -> i * Rpower r (exp_exponent stair s steps) <= i) /\ (1 <= r -> i <= i * Rpower r (exp_exponent stair s steps))).
  { intros s Hs'. pose proof (exponent_nonneg stair s steps Hs ltac:(lia)) as Hn. split; intros H1.
    - pose proof (Rpower_dec r 0 _ ltac:(lra) Hn) as H. rewrite Rpower_O in H by lra. nra.
    - pose proof (Rpower_inc r 0 _ ltac:(lra) Hn) as H. rewrite Rpower_O in H by lra. nra. }
  split; intros H1; apply exp_clip_mono; destruct (Z.leb_spec t 0), (Z.leb_spec t' 0); try lia; try lra.
  - now apply H0.
  - pose proof (Rpower_dec r _ _ ltac:(lra) Hm). nra.
  - now apply H0.
  - pose proof (Rpower_inc r _ _ ltac:(lra) Hm). nra.
Qed.

(*@ C41_exponential_degenerate : steps <= 0 or rate = 0 gives the constant init_value (end_value is then ignored), a negative begin behaves as 0, in any arithmetic. *)
Lemma exp_degenerate : forall `{O : Ops} (i r : F) (steps begin c : Z) (stair : bool) (e : option F),
  ((steps <= 0)%Z \/ feqb r fzero = true -> exponential_decay i steps r begin stair e c = i) /\
  ((begin < 0)%Z -> exponential_decay i steps r begin stair e c = exponential_decay i steps r 0 stair e c).
Proof.
  intros O i r steps begin c stair e. unfold exponential_decay. split.
  - intros [H|H]; [destruct (Z.leb_spec steps 0); [reflexivity|lia]|]. destruct (steps <=? 0)%Z; [reflexivity|]. now rewrite H.
  - intros H. destruct (Z.ltb_spec begin 0); [reflexivity|lia].
Qed.
(*@ex C41_example *)
Lemma exp_example : forall `{P : Platform}, exponential_decay (Fin 8) 2%Z (Fin (/2)) 1%Z true (Some (Fin (/4))) 6%Z = Fin 2.
Proof.
  intros P. change (Some (Fin (/ 4))) with (option_map Fin (Some (/ 4))). rewrite exp_values by (lia || lra). f_equal. cbn [exp_clip exp_exponent].
  change (6 - Z.max 0 1)%Z with 5%Z. change (5 <=? 0)%Z with false. cbv iota zeta. change (5 / 2)%Z with 2%Z. destruct (Rlt_dec (/2) 1); [|lra].
  replace 2 with (INR 2) at 2 by (cbn; lra). rewrite Rpower_pow by lra. cbn. rewrite Rmax_left by lra. lra.
Qed.

(** ** cosine decay *)
Definition cos_mult (steps c : Z) : R := (1 + cos (PI * IZR (Z.min c steps) / IZR steps)) / 2.
Lemma cosine_val `{P : Platform} i steps a : (0 < steps)%Z -> exists s, cosine_decay_schedule (Fin i) steps (Fin a) = Ok s /\
  forall c, s c = Fin (i * ((1 - a) * cos_mult steps c + a)).
Proof.
  intros Hs. unfold cosine_decay_schedule. destruct (Z.ltb_spec 0 steps); [|lia]. eexists. split; [reflexivity|]. intros c. cbv beta zeta. rewrite !zf_val, xpy1m.
  change (@fcast (XROps P) (@defdt (XROps P)) (@fone (XROps P))) with (@fone (XROps P)). rewrite (@f1 P). cbn [fcast fdiv fmul fadd fcos flit fpi XROps].
  rewrite xmul_fin, xdiv_fin by (apply not_0_IZR; lia). cbn [xcos]. rewrite !xadd_fin, !xmul_fin, !xadd_fin, !xmul_fin. f_equal. unfold cos_mult, Q2R. cbn. f_equal. f_equal. lra.
Qed.
Lemma cos_arg steps c : (0 < steps)%Z -> (0 <= c)%Z -> 0 <= PI * IZR (Z.min c steps) / IZR steps <= PI.
Proof.
  intros Hs Hc. pose proof PI_RGT_0. assert (0 < IZR steps) by now apply IZR_lt. assert (0 <= IZR (Z.min c steps) <= IZR steps) by (split; apply IZR_le; lia).
  split; [apply Rdiv_nonneg; nra|]. apply (Rmult_le_reg_r (IZR steps)); [lra|]. unfold Rdiv. rewrite Rmult_assoc, Rinv_l by lra. nra.
Qed.
Lemma cos_mult_range steps c : 0 <= cos_mult steps c <= 1.
Proof. unfold cos_mult. pose proof (COS_bound (PI * IZR (Z.min c steps) / IZR steps)). lra. Qed.

(*@ C42_cosine : for decay_steps > 0, cosine_decay_schedule has value init*((1-alpha)*(1+cos(pi*min(count,steps)/steps))/2+alpha): it starts at init, equals alpha*init from decay_steps on and, for init >= 0 and alpha <= 1, is non-increasing on counts >= 0 and stays within [alpha*init, init]. *)
Lemma cosine_spec : forall `{P : Platform} (i a : R) (steps : Z), (0 < steps)%Z -> exists s (f : Z -> R),
  cosine_decay_schedule (Fin i) steps (Fin a) = Ok s /\ (forall c, s c = Fin (f c)) /\
  (forall c, f c = i * ((1 - a) * ((1 + cos (PI * IZR (Z.min c steps) / IZR steps)) / 2) + a)) /\
  f 0%Z = i /\ (forall c, (steps <= c)%Z -> f c = a * i) /\
  (0 <= i -> a <= 1 -> (forall c, a * i <= f c <= i) /\ (forall c c', (0 <= c <= c')%Z -> f c' <= f c)).
Proof.
  intros P i a steps Hs. destruct (cosine_val i steps a Hs) as (s & E & Hv). exists s, (fun c => i * ((1 - a) * cos_mult steps c + a)).
  assert (Hs' : 0 < IZR steps) by now apply IZR_lt.
  split; [exact E|]. split; [exact Hv|]. split; [reflexivity|]. split; [|split].
  - unfold cos_mult. replace (Z.min 0 steps) with 0%Z by lia. replace (PI * 0 / IZR steps) with 0 by (unfold Rdiv; ring). rewrite cos_0. field.
  - intros c Hc. unfold cos_mult. replace (Z.min c steps) with steps by lia. replace (PI * IZR steps / IZR steps) with PI by (field; lra). rewrite cos_PI. field.
  - intros Hi Ha. split.
    + intros c. pose proof (cos_mult_range steps c) as [H1 H2].
      assert (0 <= (1 - a) * cos_mult steps c <= 1 - a) by nra. split; nra.
    + intros c c' Hc. assert (cos_mult steps c' <= cos_mult steps c); [|assert ((1 - a) * cos_mult steps c' <= (1 - a) * cos_mult steps c) by nra; nra]. unfold cos_mult.
      assert (cos (PI * IZR (Z.min c' steps) / IZR steps) <= cos (PI * IZR (Z.min c steps) / IZR steps)); [|lra].
      pose proof (cos_arg steps c Hs ltac:(lia)). pose proof (cos_arg steps c' Hs ltac:(lia)). apply cos_decr_1; try lra.
      apply Rmult_le_compat_r; [left; now apply Rinv_0_lt_compat|]. apply Rmult_le_compat_l; [left; apply PI_RGT_0|]. apply IZR_le. lia.
Qed.
(*@ex C42_example *)
Lemma cos_example : forall `{P : Platform}, exists s, cosine_decay_schedule (Fin 8) 10 (Fin (1/4)) = Ok s /\ s 0%Z = Fin 8 /\ s 5%Z = Fin 5 /\ s 17%Z = Fin 2.
Proof.
  intros P. destruct (cosine_spec 8 (1/4) 10 ltac:(lia)) as (s & f & E & Hs & Hf & H0 & He & _). exists s. split; [exact E|].
  rewrite !Hs. split; [now rewrite H0|]. split; [|rewrite He by lia; f_equal; lra]. f_equal. rewrite Hf. replace (Z.min 5 10) with 5%Z by reflexivity.
  replace (PI * 5 / 10) with (PI / 2) by field. rewrite cos_PI2. lra.
Qed.
(*@ C42_cosine_raises : non-positive decay_steps raise ValueError. *)
Lemma cosine_raises : forall `{O : Ops} (i a : F) (steps : Z), (steps <= 0)%Z -> cosine_decay_schedule i steps a = Err EValue.
Proof. intros O i a steps H. unfold cosine_decay_schedule. destruct (Z.ltb_spec 0 steps); [lia|reflexivity]. Qed.
