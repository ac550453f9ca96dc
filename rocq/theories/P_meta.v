(** Differentiating through training: hyper-gradients and meta-gradients (C100). *)
From Verif Require Export P_grad P_pipe P_alias.
From Coq Require Import List Psatz Reals Qreals.
Import ListNotations.
Open Scope R_scope.
(*@header
From Coq Require Import List Reals.
Import ListNotations.
Open Scope R_scope.
*)

(** ** The derivative carried by a dual number *)
(** [carries_fun x f]: the dual number x has the value of f at 0 and f's derivative at 0 as its tangent. *)
Definition carries_fun (x : dual) (f : R -> R) : Prop := exists t, x = fd (f 0) t /\ derivable_pt_lim f 0 t.
(** The same for a family of numbers of exact arithmetic, finite in a neighbourhood of 0. *)
Definition near0 (del s : R) : Prop := Rabs s < del.
Definition follows_on (del : R) (x : dual) (X : R -> XR) : Prop := exists f, carries_fun x f /\ forall s, near0 del s -> X s = Fin (f s).
Definition nonneg_on (del : R) (X : R -> XR) : Prop := forall s, near0 del s -> exists r, X s = Fin r /\ 0 <= r.
Definition pos_on (del : R) (X : R -> XR) : Prop := forall s, near0 del s -> exists r, X s = Fin r /\ 0 < r.

Lemma lim_ext f g x t : (forall y, f y = g y) -> derivable_pt_lim f x t -> derivable_pt_lim g x t.
Proof. intros E H eps He. destruct (H eps He) as (d & Hd). exists d. intros h H1 H2. rewrite <- !E. now apply Hd. Qed.
(** Only the values near the point matter. *)
Lemma lim_local f g x t d : 0 < d -> (forall y, Rabs (y - x) < d -> f y = g y) -> derivable_pt_lim f x t -> derivable_pt_lim g x t.
Proof.
  intros Hd E H eps He. destruct (H eps He) as (d' & Hd'). assert (Hm : 0 < Rmin d' d) by (apply Rmin_glb_lt; [apply cond_pos|exact Hd]). exists (mkposreal _ Hm). cbn. intros h H1 H2.
  rewrite <- !E; [apply Hd'; [exact H1|eapply Rlt_le_trans; [exact H2|apply Rmin_l]]| |].
  - replace (x - x) with 0 by ring. rewrite Rabs_R0. exact Hd.
  - replace (x + h - x) with h by ring. eapply Rlt_le_trans; [exact H2|apply Rmin_r].
Qed.

Section Scalars.
  Context {P : Platform}.
  Notation dr := (DualOps P).
  Notation xr := (XROps P).
  Lemma cf_const c : carries_fun (fd c 0) (fun _ => c).
  Proof. exists 0. split; [reflexivity|apply derivable_pt_lim_const]. Qed.
  Lemma cf_add d x y f g : carries_fun x f -> carries_fun y g -> carries_fun (@fadd dr d x y) (fun s => f s + g s).
  Proof. intros (t & -> & H1) (u & -> & H2). exists (t + u). split; [apply d_add|exact (derivable_pt_lim_plus _ _ _ _ _ H1 H2)]. Qed.
  Lemma cf_sub d x y f g : carries_fun x f -> carries_fun y g -> carries_fun (@fsub dr d x y) (fun s => f s - g s).
  Proof. intros (t & -> & H1) (u & -> & H2). exists (t - u). split; [apply d_sub|exact (derivable_pt_lim_minus _ _ _ _ _ H1 H2)]. Qed.
  Lemma cf_neg x f : carries_fun x f -> carries_fun (@fneg dr x) (fun s => - f s).
  Proof. intros (t & -> & H1). exists (- t). split; [apply d_neg|exact (derivable_pt_lim_opp _ _ _ H1)]. Qed.
  Lemma cf_mul d x y f g : carries_fun x f -> carries_fun y g -> carries_fun (@fmul dr d x y) (fun s => f s * g s).
  Proof. intros (t & -> & H1) (u & -> & H2). exists (t * g 0 + f 0 * u). split; [apply d_mul|exact (derivable_pt_lim_mult _ _ _ _ _ H1 H2)]. Qed.
  Lemma cf_div d x y f g : g 0 <> 0 -> carries_fun x f -> carries_fun y g -> carries_fun (@fdiv dr d x y) (fun s => f s / g s).
  Proof.
    intros Hg (t & -> & H1) (u & -> & H2). eexists. split; [apply d_div; exact Hg|]. pose proof (derivable_pt_lim_div _ _ _ _ _ H1 H2 Hg) as H. unfold div_fct, Rsqr in H.
    replace (t / g 0 - u * f 0 / (g 0 * g 0)) with ((t * g 0 - u * f 0) / (g 0 * g 0)) by (field; exact Hg). exact H.
  Qed.
  Lemma cf_comp x f h t : carries_fun x f -> derivable_pt_lim h (f 0) t -> exists u, x = fd (f 0) u /\ derivable_pt_lim (fun s => h (f s)) 0 (u * t).
  Proof. intros (u & -> & H1) H2. exists u. split; [reflexivity|]. rewrite (Rmult_comm u t). exact (derivable_pt_lim_comp f h 0 u t H1 H2). Qed.
  Lemma cf_sqrt d x f : 0 < f 0 -> carries_fun x f -> carries_fun (@fsqrt dr d x) (fun s => sqrt (f s)).
  Proof.
    intros Hf H. destruct (cf_comp x f sqrt (/ (2 * sqrt (f 0))) H (derivable_pt_lim_sqrt _ Hf)) as (u & -> & H2). exists (u * / (2 * sqrt (f 0))). split; [|exact H2].
    pose proof (sqrt_lt_R0 _ Hf). cbn [fsqrt DualOps]. unfold dun, fd. cbn [fst snd]. rewrite xsqrt_fin by lra. rewrite xdiv_fin by lra. rewrite xmul_fin. do 2 f_equal. field. lra.
  Qed.
  Lemma cf_rsqrt d x f : 0 < f 0 -> carries_fun x f -> carries_fun (@frsqrt dr d x) (fun s => 1 / sqrt (f s)).
  Proof.
    intros Hf H. pose proof (sqrt_lt_R0 _ Hf) as Hs. pose proof (cf_sqrt d x f Hf H) as H1. destruct (cf_div d (fd 1 0) (@fsqrt dr d x) (fun _ => 1) (fun s => sqrt (f s)) ltac:(lra) (cf_const 1) H1) as (t & Et & H2).
    destruct H as (u & -> & H). exists t. split; [|exact H2]. rewrite <- Et. cbn [fsqrt frsqrt fdiv DualOps]. unfold dun, fd. cbn [fst snd]. unfold xrsqrt. rewrite !xsqrt_fin by lra. rewrite !xdiv_fin by lra. rewrite !xmul_fin, !xdiv_fin by nra. unfold xsub, xneg. rewrite xadd_fin. do 2 f_equal.
    rewrite <- (sqrt_sqrt (f 0)) at 2 by lra. field. lra.
  Qed.
  Lemma cf_exp d x f : carries_fun x f -> carries_fun (@fexp dr d x) (fun s => exp (f s)).
  Proof. intros H. destruct (cf_comp x f exp _ H (derivable_pt_lim_exp _)) as (u & -> & H2). eexists. split; [apply d_exp|exact H2]. Qed.
  Lemma cf_log d x f : 0 < f 0 -> carries_fun x f -> carries_fun (@flog dr d x) (fun s => ln (f s)).
  Proof. intros Hf H. destruct (cf_comp x f ln _ H (derivable_pt_lim_ln _ Hf)) as (u & -> & H2). eexists. split; [apply d_log, Hf|]. replace (u * (1 / f 0)) with (u * / f 0) by (field; lra). exact H2. Qed.
  Lemma cf_log1p d x f : -1 < f 0 -> carries_fun x f -> carries_fun (@flog1p dr d x) (fun s => ln (1 + f s)).
  Proof.
    intros Hf H. assert (H1 : carries_fun (@fadd dr d (fd 1 0) x) (fun s => 1 + f s)) by (apply (cf_add d); [apply cf_const|exact H]).
    destruct (cf_comp _ _ ln _ H1 (derivable_pt_lim_ln (1 + f 0) ltac:(lra))) as (u & Eu & H2). destruct H as (t & -> & H). rewrite d_add in Eu. assert (u = t) as -> by (unfold fd in Eu; injection Eu as Eu; lra). eexists. split; [apply d_log1p, Hf|].
    replace (t * (1 / (f 0 + 1))) with (t * / (1 + f 0)) by (field; lra). exact H2.
  Qed.
  Lemma cf_cos d x f : carries_fun x f -> carries_fun (@fcos dr d x) (fun s => cos (f s)).
  Proof. intros H. destruct (cf_comp x f cos _ H (derivable_pt_lim_cos _)) as (u & -> & H2). eexists. split; [|exact H2]. reflexivity. Qed.
  Lemma cf_pow_nat d x f k : (1 <= k)%nat -> carries_fun x f -> carries_fun (@fpow dr d x (fd (INR k) 0)) (fun s => f s ^ k).
  Proof.
    intros Hk H. destruct (cf_comp x f (fun y => y ^ k) _ H (derivable_pt_lim_pow _ k)) as (u & -> & H2). eexists. split; [|exact H2]. assert (Hn : INR k <> 0) by (apply not_0_INR; lia).
    cbn [fpow DualOps]. unfold dpow, fd. cbn [fst snd]. rewrite xpow_nat. unfold xeqb. destruct (Req_EM_T (INR k) 0) as [|_]; [easy|]. destruct (Req_EM_T 0 0) as [_|]; [|easy].
    unfold xsub, xneg. rewrite xadd_fin. replace (INR k + - (1)) with (INR (pred k)) by (destruct k; [lia|]; rewrite S_INR; cbn [pred]; ring). rewrite xpow_nat, !xmul_fin. reflexivity.
  Qed.
  Lemma cf_pow_pos d x y f g : 0 < f 0 -> g 0 <> 0 -> carries_fun x f -> carries_fun y g -> carries_fun (@fpow dr d x y) (fun s => Rpower (f s) (g s)).
  Proof.
    intros Hf Hg H1 H2. pose proof (cf_exp d _ _ (cf_mul d _ _ _ _ H2 (cf_log d _ _ Hf H1))) as (t & Et & H3). exists t. split; [|exact H3].
    destruct H1 as (a & -> & H1), H2 as (b & -> & H2). rewrite d_log, d_mul, d_exp in Et by exact Hf. eapply eq_trans; [|exact Et]. clear Et. change (exp (g 0 * ln (f 0))) with (Rpower (f 0) (g 0)).
    cbn [fpow DualOps]. unfold dpow, fd. cbn [fst snd]. rewrite xpow_pos by exact Hf. unfold xeqb. destruct (Req_EM_T (g 0) 0) as [|_]; [easy|]. destruct (Req_EM_T (f 0) 0) as [|_]; [lra|].
    unfold xsub, xneg. rewrite xadd_fin, xpow_pos, xlog_fin, !xmul_fin by exact Hf.
    assert (E : Rpower (f 0) (g 0 + - (1)) = Rpower (f 0) (g 0) / f 0) by (rewrite Rpower_plus, Rpower_Ropp, Rpower_1 by exact Hf; reflexivity).
    rewrite E. f_equal. destruct (Req_EM_T b 0) as [->|]; [f_equal; field; lra|]. rewrite xadd_fin. f_equal. field. lra.
  Qed.
  Lemma near f t e : derivable_pt_lim f 0 t -> 0 < e -> exists d, 0 < d /\ forall y, Rabs (y - 0) < d -> Rabs (f y - f 0) < e.
  Proof.
    intros H He. assert (C : continuity_pt f 0) by (apply derivable_continuous_pt; exists t; exact H). destruct (C e He) as (d & Hd & Hc). exists d. split; [exact Hd|]. intros y Hy.
    destruct (Req_dec y 0) as [->|Hn]; [replace (f 0 - f 0) with 0 by ring; rewrite Rabs_R0; exact He|]. apply (Hc y). split; [split; [exact I|auto]|exact Hy].
  Qed.
  Lemma cf_abs x f : f 0 <> 0 -> carries_fun x f -> carries_fun (@fabs dr x) (fun s => Rabs (f s)).
  Proof.
    intros Hf (t & -> & H). exists (t * IZR (rsgn (f 0))). split; [apply d_abs|]. destruct (near f t (Rabs (f 0)) H (Rabs_pos_lt _ Hf)) as (d & Hd & Hc).
    destruct (rsgn_cases (f 0)) as [(S1 & ->)|[(S1 & ->)|(S1 & _)]]; [| |easy].
    - rewrite Rmult_1_r. apply (lim_local f _ 0 t d Hd); [|exact H]. intros y Hy. specialize (Hc y Hy). rewrite (Rabs_right (f 0)) in Hc by lra. apply Rabs_def2 in Hc. rewrite Rabs_right; lra.
    - replace (t * -1) with (- t) by ring. apply (lim_local (fun s => - f s) _ 0 (- t) d Hd); [|exact (derivable_pt_lim_opp _ _ _ H)]. intros y Hy. specialize (Hc y Hy). rewrite (Rabs_left (f 0)) in Hc by lra. apply Rabs_def2 in Hc. rewrite Rabs_left; lra.
  Qed.
  Lemma apart f g t u : derivable_pt_lim f 0 t -> derivable_pt_lim g 0 u -> f 0 < g 0 -> exists d, 0 < d /\ forall y, Rabs (y - 0) < d -> f y < g y.
  Proof.
    intros H1 H2 Hl. destruct (near f t ((g 0 - f 0) / 2) H1 ltac:(lra)) as (d1 & D1 & C1). destruct (near g u ((g 0 - f 0) / 2) H2 ltac:(lra)) as (d2 & D2 & C2). exists (Rmin d1 d2). split; [now apply Rmin_glb_lt|].
    intros y Hy. specialize (C1 y ltac:(eapply Rlt_le_trans; [exact Hy|apply Rmin_l])). specialize (C2 y ltac:(eapply Rlt_le_trans; [exact Hy|apply Rmin_r])). apply Rabs_def2 in C1, C2. lra.
  Qed.
  Lemma cf_max x y f g : f 0 <> g 0 -> carries_fun x f -> carries_fun y g -> carries_fun (@fmax dr x y) (fun s => Rmax (f s) (g s)).
  Proof.
    intros Hn (t & -> & H1) (u & -> & H2). eexists. split; [apply d_max|]. destruct (Rlt_dec (g 0) (f 0)) as [L1|]; [|destruct (Rlt_dec (f 0) (g 0)) as [L1|]; [|lra]].
    - destruct (apart g f u t H2 H1 L1) as (d & Hd & Hc). apply (lim_local f _ 0 t d Hd); [|exact H1]. intros z Hz. specialize (Hc z Hz). rewrite Rmax_left; lra.
    - destruct (apart f g t u H1 H2 L1) as (d & Hd & Hc). apply (lim_local g _ 0 u d Hd); [|exact H2]. intros z Hz. specialize (Hc z Hz). rewrite Rmax_right; lra.
  Qed.
  Lemma cf_min x y f g : f 0 <> g 0 -> carries_fun x f -> carries_fun y g -> carries_fun (@fmin dr x y) (fun s => Rmin (f s) (g s)).
  Proof.
    intros Hn (t & -> & H1) (u & -> & H2). eexists. split; [apply d_min|]. destruct (Rlt_dec (f 0) (g 0)) as [L1|]; [|destruct (Rlt_dec (g 0) (f 0)) as [L1|]; [|lra]].
    - destruct (apart f g t u H1 H2 L1) as (d & Hd & Hc). apply (lim_local f _ 0 t d Hd); [|exact H1]. intros z Hz. specialize (Hc z Hz). rewrite Rmin_left; lra.
    - destruct (apart g f u t H2 H1 L1) as (d & Hd & Hc). apply (lim_local g _ 0 u d Hd); [|exact H2]. intros z Hz. specialize (Hc z Hz). rewrite Rmin_right; lra.
  Qed.
End Scalars.

Section Follow.
  Context {P : Platform} (del : R) (Hdel : 0 < del).
  Notation follows := (follows_on del).
  Notation nonneg := (nonneg_on del).
  Notation pos := (pos_on del).
  Notation near0 := (near0 del).
  Lemma at0 : near0 0.
  Proof. cbv delta [near0]. cbv beta. rewrite Rabs_R0. exact Hdel. Qed.
  Notation dr := (DualOps P).
  Notation xr := (XROps P).
  Lemma fol_ext x X Y : follows x X -> (forall s, near0 s -> X s = Y s) -> follows x Y.
  Proof. intros (f & H & E) E2. exists f. split; [exact H|]. intros s Hs. rewrite <- E2 by exact Hs; auto. Qed.
  Lemma fol_const c : follows (fd c 0) (fun _ => Fin c).
  Proof. exists (fun _ => c). split; [apply cf_const|reflexivity]. Qed.
  Lemma fol_lit q : follows (@flit dr q) (fun _ => @flit xr q).
  Proof. apply (fol_const (Q2R q)). Qed.
  Lemma fol_add d d' x X y Y : follows x X -> follows y Y -> follows (@fadd dr d x y) (fun s => @fadd xr d' (X s) (Y s)).
  Proof. intros (f & H1 & E1) (g & H2 & E2). exists (fun s => f s + g s). split; [now apply cf_add|]. intros s Hs. rewrite E1, E2 by exact Hs. reflexivity. Qed.
  Lemma fol_sub d d' x X y Y : follows x X -> follows y Y -> follows (@fsub dr d x y) (fun s => @fsub xr d' (X s) (Y s)).
  Proof. intros (f & H1 & E1) (g & H2 & E2). exists (fun s => f s - g s). split; [now apply cf_sub|]. intros s Hs. rewrite E1, E2 by exact Hs. reflexivity. Qed.
  Lemma fol_mul d d' x X y Y : follows x X -> follows y Y -> follows (@fmul dr d x y) (fun s => @fmul xr d' (X s) (Y s)).
  Proof. intros (f & H1 & E1) (g & H2 & E2). exists (fun s => f s * g s). split; [now apply cf_mul|]. intros s Hs. rewrite E1, E2 by exact Hs. reflexivity. Qed.
  Lemma fol_neg x X : follows x X -> follows (@fneg dr x) (fun s => @fneg xr (X s)).
  Proof. intros (f & H1 & E1). exists (fun s => - f s). split; [now apply cf_neg|]. intros s Hs. rewrite E1 by exact Hs. reflexivity. Qed.
  Lemma fol_div d d' x X y Y : pos Y -> follows x X -> follows y Y -> follows (@fdiv dr d x y) (fun s => @fdiv xr d' (X s) (Y s)).
  Proof.
    intros Hp (f & H1 & E1) (g & H2 & E2). assert (Hg : forall s, near0 s -> 0 < g s) by (intros s Hs; destruct (Hp s Hs) as (r & Er & Hr); rewrite E2 in Er by exact Hs; injection Er as <-; exact Hr).
    exists (fun s => f s / g s). split; [apply cf_div; [specialize (Hg 0 at0); lra|exact H1|exact H2]|]. intros s Hs. rewrite E1, E2 by exact Hs. apply xdiv_fin. specialize (Hg s Hs). lra.
  Qed.
  Lemma fol_sqrt d d' x X : pos X -> follows x X -> follows (@fsqrt dr d x) (fun s => @fsqrt xr d' (X s)).
  Proof.
    intros Hp (f & H1 & E1). assert (Hg : forall s, near0 s -> 0 < f s) by (intros s Hs; destruct (Hp s Hs) as (r & Er & Hr); rewrite E1 in Er by exact Hs; injection Er as <-; exact Hr).
    exists (fun s => sqrt (f s)). split; [apply cf_sqrt; [exact (Hg 0 at0)|exact H1]|]. intros s Hs. rewrite E1 by exact Hs. apply xsqrt_fin. specialize (Hg s Hs). lra.
  Qed.
  Lemma fol_rsqrt d d' x X : pos X -> follows x X -> follows (@frsqrt dr d x) (fun s => @frsqrt xr d' (X s)).
  Proof.
    intros Hp (f & H1 & E1). assert (Hg : forall s, near0 s -> 0 < f s) by (intros s Hs; destruct (Hp s Hs) as (r & Er & Hr); rewrite E1 in Er by exact Hs; injection Er as <-; exact Hr).
    exists (fun s => 1 / sqrt (f s)). split; [apply cf_rsqrt; [exact (Hg 0 at0)|exact H1]|]. intros s Hs. rewrite E1 by exact Hs. cbn [frsqrt XROps]. unfold xrsqrt. rewrite xsqrt_fin by (specialize (Hg s Hs); lra). apply xdiv_fin. pose proof (sqrt_lt_R0 _ (Hg s Hs)). lra.
  Qed.
  Lemma nn_add d X Y : nonneg X -> nonneg Y -> nonneg (fun s => @fadd xr d (X s) (Y s)).
  Proof. intros H1 H2 s Hs. destruct (H1 s Hs) as (a & -> & Ha), (H2 s Hs) as (b & -> & Hb). exists (a + b). split; [reflexivity|lra]. Qed.
  Lemma pos_add d X Y : nonneg X -> pos Y -> pos (fun s => @fadd xr d (X s) (Y s)).
  Proof. intros H1 H2 s Hs. destruct (H1 s Hs) as (a & -> & Ha), (H2 s Hs) as (b & -> & Hb). exists (a + b). split; [reflexivity|lra]. Qed.
  Lemma nn_mul d X Y : nonneg X -> nonneg Y -> nonneg (fun s => @fmul xr d (X s) (Y s)).
  Proof. intros H1 H2 s Hs. destruct (H1 s Hs) as (a & -> & Ha), (H2 s Hs) as (b & -> & Hb). exists (a * b). split; [reflexivity|]. now apply Rmult_le_pos. Qed.
  Lemma nn_sq d x X : follows x X -> nonneg (fun s => @fmul xr d (X s) (X s)).
  Proof. intros (f & _ & E) s Hs. rewrite E by exact Hs. exists (f s * f s). split; [reflexivity|apply Rle_0_sqr]. Qed.
  Lemma nn_div d X Y : nonneg X -> pos Y -> nonneg (fun s => @fdiv xr d (X s) (Y s)).
  Proof. intros H1 H2 s Hs. destruct (H1 s Hs) as (a & -> & Ha), (H2 s Hs) as (b & -> & Hb). exists (a / b). split; [apply xdiv_fin; lra|]. apply Rmult_le_pos; [exact Ha|apply Rlt_le, Rinv_0_lt_compat, Hb]. Qed.
  Lemma nn_sqrt d X : nonneg X -> nonneg (fun s => @fsqrt xr d (X s)).
  Proof. intros H s Hs. destruct (H s Hs) as (a & -> & Ha). exists (sqrt a). split; [now apply xsqrt_fin|apply sqrt_pos]. Qed.
  Lemma pos_nn X : pos X -> nonneg X.
  Proof. intros H s Hs. destruct (H s Hs) as (a & -> & Ha). exists a. split; [reflexivity|lra]. Qed.

  (** ** Trees of arrays *)
  (** [x] carries, in every element, the value and the derivative at 0 of that element of the family of finite trees [X]. *)
  Definition derives (x : tree (gt dual)) (X : R -> tree (gt XR)) : Prop :=
    trwf x /\ (forall s, near0 s -> avals (X s) = avals x /\ trwf (X s)) /\
    forall pos y, elt x pos = Some y -> exists f, carries_fun y f /\ forall s, near0 s -> elt (X s) pos = Some (Fin (f s)).
  Definition at_pos (X : tree (gt XR)) (pos : nat * nat) : XR := match elt X pos with Some v => v | None => Fin 0 end.
  Lemma derives_elt x X pos y : derives x X -> elt x pos = Some y -> follows y (fun s => at_pos (X s) pos) /\ forall s, near0 s -> elt (X s) pos = Some (at_pos (X s) pos).
  Proof.
    intros (_ & _ & H) E. destruct (H pos y E) as (f & Hf & Ef). split.
    - exists f. split; [exact Hf|]. intros s Hs. unfold at_pos. now rewrite Ef by exact Hs.
    - intros s Hs. unfold at_pos. now rewrite Ef by exact Hs.
  Qed.
  Lemma derives_of x X : trwf x -> (forall s, near0 s -> avals (X s) = avals x /\ trwf (X s)) -> (forall pos y, elt x pos = Some y -> exists Y, follows y Y /\ forall s, near0 s -> elt (X s) pos = Some (Y s)) -> derives x X.
  Proof. intros W H1 H2. split; [exact W|]. split; [exact H1|]. intros pos y Hy. destruct (H2 pos y Hy) as (Y & (f & Hf & Ef) & HY). exists f. split; [exact Hf|]. intros s Hs. now rewrite HY, Ef by exact Hs. Qed.

  (** ** Transformations *)
  (** The transformation [TD] on dual numbers carries the derivative of the family [TX], call after call. *)
  Definition differentiates (TD : @GT dr) (TX : R -> @GT xr) : Prop :=
    exists I : nat -> tree (fdt * list nat) -> @state dr -> (R -> @state xr) -> Prop,
      (forall x X, derives x X -> exists sd SS, @init dr TD x = Ok sd /\ (forall s, near0 s -> @init xr (TX s) (X s) = Ok (SS s)) /\ I 0%nat (avals x) sd SS) /\
      (forall n A sd SS u U q Q, I n A sd SS -> derives u U -> derives q Q -> avals u = A -> avals q = A ->
         exists u' sd' U' SS', @update dr TD u sd (Some q) = Ok (u', sd') /\ (forall s, near0 s -> @update xr (TX s) (U s) (SS s) (Some (Q s)) = Ok (U' s, SS' s)) /\
           derives u' U' /\ avals u' = A /\ I (S n) A sd' SS').
  Definition simulates (MD : @machine dr) (MX : R -> @machine xr) : Prop :=
    exists Rst : nat -> mE MD -> (forall s, mE (MX s)) -> Prop,
      (forall d x X, follows x X -> Rst 0%nat (m_init MD d x) (fun s => m_init (MX s) d (X s))) /\
      (forall n d g G p Q e E, follows g G -> follows p Q -> Rst n e E ->
         follows (fst (m_step MD n d g p e)) (fun s => fst (m_step (MX s) n d (G s) (Q s) (E s))) /\
         Rst (S n) (snd (m_step MD n d g p e)) (fun s => snd (m_step (MX s) n d (G s) (Q s) (E s)))).
End Follow.

(** A state that represents the tree of machine states [Z] after n calls. *)
Definition stands `{O : Ops} (np : bool) (T : GT) (M : machine) (n : nat) (st : state) (Z : tree (gt (mE M))) : Prop :=
  exists repr : nat -> tree (gt (mE M)) -> state, st = repr n Z /\
    (forall n (W : tree (gt (F * F * mE M))) par, trwf W -> (np = false -> par = Some (emapt (fun _ z => snd (fst z)) W)) ->
       update T (emapt (fun _ z => fst (fst z)) W) (repr n (emapt (fun _ z => snd z) W)) par =
       Ok (emapt (fun d z => fst (m_step M n d (fst (fst z)) (snd (fst z)) (snd z))) W,
           repr (S n) (emapt (fun d z => snd (m_step M n d (fst (fst z)) (snd (fst z)) (snd z))) W))).
Section Stands.
  Context `{O : Ops}.
  Lemma stands_init np T M p : refines np T M -> trwf p -> exists st, init T p = Ok st /\ stands np T M 0 st (emapt (m_init M) p).
  Proof. intros (repr & sg & Hi & _ & _ & Hu) Wp. exists (repr 0%nat (emapt (m_init M) p)). split; [auto|]. exists repr. auto. Qed.
  Lemma stands_step np T M n st Z u q : stands np T M n st Z -> trwf u -> trwf q -> trwf Z -> avals u = avals Z -> avals q = avals Z ->
    exists u' st' Z', update T u st (Some q) = Ok (u', st') /\ stands np T M (S n) st' Z' /\ avals u' = avals Z /\ trwf u' /\ avals Z' = avals Z /\ trwf Z' /\
      (forall pos a b e, elt u pos = Some a -> elt q pos = Some b -> elt Z pos = Some e ->
         elt u' pos = Some (fst (m_step M n (leafdt Z pos) a b e)) /\ elt Z' pos = Some (snd (m_step M n (leafdt Z pos) a b e))) /\
      (forall pos y, elt u' pos = Some y \/ (exists e, elt Z' pos = Some e) -> exists a b e, elt u pos = Some a /\ elt q pos = Some b /\ elt Z pos = Some e).
  Proof.
    intros (repr & -> & Hu) Wu Wq WZ Au Aq.
    destruct (tree_gzip u q (eq_trans Au (eq_sym Aq)) Wu Wq) as (W1 & HW1 & WW1 & E1 & E2).
    destruct (tree_gzip W1 Z (eq_trans HW1 Au) WW1 WZ) as (W & HW & WW & E3 & E4).
    assert (Eg : emapt (fun _ z => fst (fst z)) W = u) by (rewrite <- E1, <- E3, emapt_emapt; reflexivity).
    assert (Eq : emapt (fun _ z => snd (fst z)) W = q) by (rewrite <- E2, <- E3, emapt_emapt; reflexivity).
    assert (EZ : emapt (fun _ z => snd z) W = Z) by exact E4.
    pose proof (Hu n W (Some q) WW ltac:(intros _; now rewrite Eq)) as HU. rewrite Eg, EZ in HU.
    assert (HWZ : avals W = avals Z) by congruence.
    eexists _, _, _. split; [exact HU|]. split; [exists repr; split; [reflexivity|exact Hu]|]. rewrite !emapt_avals. split; [exact HWZ|]. split; [now apply emapt_wf|]. split; [exact HWZ|]. split; [now apply emapt_wf|]. split.
    - intros pos a b e Ha Hb He. assert (EW : elt W pos = Some (a, b, e)).
      { pose proof (elt_zip _ _ W pos E3 E4) as X1. pose proof (elt_zip _ _ W1 pos E1 E2) as X2. now rewrite X2, Ha, Hb, He in X1. }
      rewrite !elt_emapt, EW. cbn [option_map fst snd]. rewrite (leafdt_avals W Z pos HWZ). auto.
    - intros pos y Hy. assert (exists w, elt W pos = Some w) as (((a, b), e) & EW).
      { destruct Hy as [Hy|(e & Hy)]; rewrite elt_emapt in Hy; destruct (elt W pos) as [w|]; try discriminate; eauto. }
      exists a, b, e. rewrite <- Eg, <- Eq, <- EZ, !elt_emapt, EW. auto.
  Qed.
End Stands.
Lemma fit_next `{O : Ops} T grad n p x s u s' r : fit T grad n p = Ok (x, s) -> update T (grad n x) s (Some x) = Ok (u, s') -> apply_updates x u = Ok r -> fit T grad (S n) p = Ok (r, s').
Proof. intros E1 E2 E3. cbn [fit]. rewrite E1. cbn [rbind fst snd]. rewrite E2. cbn [rbind fst snd]. rewrite E3. reflexivity. Qed.
Lemma emapt_inv {A B} (f : fdt -> A -> B) (x : tree (gt A)) pos e : elt (emapt f x) pos = Some e -> exists y, elt x pos = Some y /\ e = f (leafdt x pos) y.
Proof. rewrite elt_emapt. destruct (elt x pos) as [y|]; [|discriminate]. cbn [option_map]. intros [= <-]. eauto. Qed.
Section Through.
  Context {P : Platform} (del : R) (Hdel : 0 < del).
  Notation near0 := (near0 del).
  Notation dr := (DualOps P).
  Notation xr := (XROps P).
  Lemma diff_machine np (TD : @GT dr) (TX : R -> @GT xr) MD MX : @refines dr np TD MD -> (forall s, near0 s -> @refines xr np (TX s) (MX s)) -> @simulates P del MD MX -> @differentiates P del TD TX.
  Proof.
    intros RD RX (Rst & H0 & HS).
    exists (fun n A sd SS => exists (Z : tree (gt (mE MD))) (EE : nat * nat -> forall s, mE (MX s)), @stands dr np TD MD n sd Z /\ trwf Z /\ avals Z = A /\
      (forall s, near0 s -> exists Zs, @stands xr np (TX s) (MX s) n (SS s) Zs /\ trwf Zs /\ avals Zs = A /\ forall pos e, elt Z pos = Some e -> elt Zs pos = Some (EE pos s)) /\
      forall pos e, elt Z pos = Some e -> Rst n e (EE pos)).
    split.
    - intros x X Hx. pose proof Hx as (Wx & HX & _). destruct (@stands_init dr np TD MD x RD Wx) as (sd & Ed & Sd).
      exists sd, (fun s => match @init xr (TX s) (X s) with Ok z => z | Err _ => @EmptyState xr end). split; [exact Ed|]. split.
      { intros s Hs. destruct (HX s Hs) as (_ & Ws). destruct (@stands_init xr np (TX s) (MX s) (X s) (RX s Hs) Ws) as (st & Es & _). rewrite Es. reflexivity. }
      exists (emapt (m_init MD) x), (fun pos s => m_init (MX s) (leafdt x pos) (at_pos (X s) pos)). split; [exact Sd|]. split; [now apply emapt_wf|]. split; [apply emapt_avals|]. split.
      + intros s Hs. destruct (HX s Hs) as (As & Ws). destruct (@stands_init xr np (TX s) (MX s) (X s) (RX s Hs) Ws) as (st & Es & Ss). rewrite Es. exists (emapt (m_init (MX s)) (X s)). split; [exact Ss|]. split; [now apply emapt_wf|]. split; [rewrite emapt_avals; exact As|].
        intros pos e He. destruct (emapt_inv _ _ _ _ He) as (y & Ey & _). destruct (derives_elt del x X pos y Hx Ey) as (_ & Hv). rewrite elt_emapt. eapply eq_trans; [exact (f_equal (option_map _) (Hv s Hs))|]. cbn [option_map]. exact (f_equal (fun d => Some (m_init (MX s) d (at_pos (X s) pos))) (leafdt_avals (X s) x pos As)).
      + intros pos e He. destruct (emapt_inv _ _ _ _ He) as (y & Ey & Ee). rewrite Ee. destruct (derives_elt del x X pos y Hx Ey) as (Hv & _). apply (H0 (leafdt x pos) y _ Hv).
    - intros n A sd SS u U q Q (Z & EE & Sd & WZ & AZ & HX & HR) Hu Hq Au Aq. pose proof Hu as (Wu & HU & _). pose proof Hq as (Wq & HQ & _).
      destruct (@stands_step dr np TD MD n sd Z u q Sd Wu Wq WZ (eq_trans Au (eq_sym AZ)) (eq_trans Aq (eq_sym AZ))) as (u' & sd' & Z' & Ed & Sd' & Au' & Wu' & AZ' & WZ' & He & Hinv).
      set (out := fun s => match @update xr (TX s) (U s) (SS s) (Some (Q s)) with Ok z => z | Err _ => (U s, SS s) end).
      assert (K : forall s, near0 s -> exists Zs', @update xr (TX s) (U s) (SS s) (Some (Q s)) = Ok (out s) /\ @stands xr np (TX s) (MX s) (S n) (snd (out s)) Zs' /\ avals (fst (out s)) = A /\ trwf (fst (out s)) /\ trwf Zs' /\ avals Zs' = A /\
        forall pos a b e, elt u pos = Some a -> elt q pos = Some b -> elt Z pos = Some e ->
          elt (fst (out s)) pos = Some (fst (m_step (MX s) n (leafdt Z pos) (at_pos (U s) pos) (at_pos (Q s) pos) (EE pos s))) /\ elt Zs' pos = Some (snd (m_step (MX s) n (leafdt Z pos) (at_pos (U s) pos) (at_pos (Q s) pos) (EE pos s)))).
      { intros s Hs. destruct (HX s Hs) as (Zs & Ss & WZs & AZs & HZs). destruct (HU s Hs) as (AUs & WUs). destruct (HQ s Hs) as (AQs & WQs).
        destruct (@stands_step xr np (TX s) (MX s) n (SS s) Zs (U s) (Q s) Ss WUs WQs WZs (eq_trans (eq_trans AUs Au) (eq_sym AZs)) (eq_trans (eq_trans AQs Aq) (eq_sym AZs))) as (us & st' & Zs' & Es & Ss' & Aus & Wus & AZs' & WZs' & Hes & _).
        assert (Eo : out s = (us, st')) by exact (@eq_ind_r _ (Ok (us, st')) (fun r => match r with Ok z => z | Err _ => (U s, SS s) end = (us, st')) eq_refl _ Es). exists Zs'. rewrite Eo. split; [exact Es|]. split; [exact Ss'|]. split; [exact (eq_trans Aus AZs)|]. split; [exact Wus|]. split; [exact WZs'|]. split; [exact (eq_trans AZs' AZs)|].
        intros pos a b e Ha Hb Hee. destruct (derives_elt del u U pos a Hu Ha) as (_ & V1). destruct (derives_elt del q Q pos b Hq Hb) as (_ & V2). cbn [fst].
        rewrite (leafdt_avals Z Zs pos (eq_trans AZ (eq_sym AZs))). apply Hes; [exact (V1 s Hs)|exact (V2 s Hs)|exact (HZs pos e Hee)]. }
      exists u', sd', (fun s => fst (out s)), (fun s => snd (out s)). split; [exact Ed|]. split; [intros s Hs; destruct (K s Hs) as (Zs' & E & _); rewrite E; f_equal; apply surjective_pairing|].
      split; [|split; [exact (eq_trans Au' AZ)|]].
      + apply (derives_of del); [exact Wu'|intros s Hs; destruct (K s Hs) as (Zs' & _ & _ & A1 & W1 & _); split; [exact (eq_trans A1 (eq_sym (eq_trans Au' AZ)))|exact W1]|]. intros pos y Hy. destruct (Hinv pos y (or_introl Hy)) as (a & b & e & Ha & Hb & Hee).
        destruct (He pos a b e Ha Hb Hee) as (E1 & _). pose proof (eq_trans (eq_sym Hy) E1) as E2. injection E2 as ->.
        exists (fun s => fst (m_step (MX s) n (leafdt Z pos) (at_pos (U s) pos) (at_pos (Q s) pos) (EE pos s))). split.
        * apply HS; [apply (derives_elt del u U pos a Hu Ha)|apply (derives_elt del q Q pos b Hq Hb)|exact (HR pos e Hee)].
        * intros s Hs. destruct (K s Hs) as (Zs' & _ & _ & _ & _ & _ & _ & Hk). apply (Hk pos a b e Ha Hb Hee).
      + exists Z', (fun pos s => snd (m_step (MX s) n (leafdt Z pos) (at_pos (U s) pos) (at_pos (Q s) pos) (EE pos s))). split; [exact Sd'|]. split; [exact WZ'|]. split; [exact (eq_trans AZ' AZ)|]. split.
        * intros s Hs. destruct (K s Hs) as (Zs' & _ & Ss' & _ & _ & WZs' & AZs' & Hk). exists Zs'. split; [exact Ss'|]. split; [exact WZs'|]. split; [exact AZs'|]. intros pos e' He'.
          destruct (Hinv pos (fd 0 0) (or_intror (ex_intro _ e' He'))) as (a & b & e & Ha & Hb & Hee). apply (Hk pos a b e Ha Hb Hee).
        * intros pos e' He'. destruct (Hinv pos (fd 0 0) (or_intror (ex_intro _ e' He'))) as (a & b & e & Ha & Hb & Hee). destruct (He pos a b e Ha Hb Hee) as (_ & E2). pose proof (eq_trans (eq_sym He') E2) as E3. injection E3 as ->.
          apply HS; [apply (derives_elt del u U pos a Hu Ha)|apply (derives_elt del q Q pos b Hq Hb)|exact (HR pos e Hee)].
  Qed.

  (** ** Chains *)
  Lemma diff_chain (TDs : list (@GT dr)) (TXs : list (R -> @GT xr)) : Forall2 (@differentiates P del) TDs TXs -> @differentiates P del (chain_gt TDs) (fun s => chain_gt (map (fun T => T s) TXs)).
  Proof.
    intros HF.
    assert (G : exists J : nat -> tree (fdt * list nat) -> list (@state dr) -> list (R -> @state xr) -> Prop,
      (forall x X, derives del x X -> exists sd SS, @chain_init dr TDs x = Ok sd /\ (forall s, near0 s -> @chain_init xr (map (fun T => T s) TXs) (X s) = Ok (map (fun z => z s) SS)) /\ J 0%nat (avals x) sd SS) /\
      (forall n A sd SS, J n A sd SS -> length sd = length TDs /\ length SS = length TXs) /\
      (forall n A sd SS u U q Q, J n A sd SS -> derives del u U -> derives del q Q -> avals u = A -> avals q = A ->
         exists u' sd' U' SS', @chain_update dr TDs sd u (Some q) = Ok (u', sd') /\ (forall s, near0 s -> @chain_update xr (map (fun T => T s) TXs) (map (fun z => z s) SS) (U s) (Some (Q s)) = Ok (U' s, map (fun z => z s) SS')) /\
           derives del u' U' /\ avals u' = A /\ J (S n) A sd' SS')).
    { induction HF as [|TD TX TDs TXs (I & Hi & Hu) HF (J & Ji & Jl & Ju)].
      - exists (fun _ _ sd SS => sd = [] /\ SS = []). split; [intros x X Hx; exists [], []; split; [reflexivity|split; [reflexivity|split; reflexivity]]|]. split; [intros n A sd SS (-> & ->); split; reflexivity|].
        intros n A sd SS u U q Q (-> & ->) Hu Hq Au Aq. exists u, [], U, []. split; [reflexivity|]. split; [reflexivity|]. split; [exact Hu|]. split; [exact Au|split; reflexivity].
      - exists (fun n A sd SS => exists a l b m, sd = a :: l /\ SS = b :: m /\ I n A a b /\ J n A l m). split; [|split].
        + intros x X Hx. destruct (Hi x X Hx) as (a & b & E1 & E2 & I1). destruct (Ji x X Hx) as (l & m & E3 & E4 & J1). exists (a :: l), (b :: m).
          split; [cbn [chain_init]; rewrite E1; cbn [rbind]; rewrite E3; reflexivity|]. split; [intros s Hs; cbn [map chain_init]; rewrite (E2 s Hs); cbn [rbind]; rewrite (E4 s Hs); reflexivity|]. exists a, l, b, m. auto.
        + intros n A sd SS (a & l & b & m & -> & -> & _ & HJ). destruct (Jl _ _ _ _ HJ) as (E1 & E2). cbn [length]. auto.
        + intros n A sd SS u U q Q (a & l & b & m & -> & -> & HI & HJ) Hud Hqd Au Aq. destruct (Hu n A a b u U q Q HI Hud Hqd Au Aq) as (u1 & a1 & U1 & b1 & E1 & E2 & D1 & A1 & I1).
          destruct (Ju n A l m u1 U1 q Q HJ D1 Hqd A1 Aq) as (u2 & l1 & U2 & m1 & E3 & E4 & D2 & A2 & J1). exists u2, (a1 :: l1), U2, (b1 :: m1).
          split; [cbn [chain_update]; rewrite E1; cbn [rbind]; rewrite E3; reflexivity|]. split; [intros s Hs; cbn [map chain_update]; rewrite (E2 s Hs); cbn [rbind]; rewrite (E4 s Hs); reflexivity|]. split; [exact D2|]. split; [exact A2|]. exists a1, l1, b1, m1. auto. }
    destruct G as (J & Ji & Jl & Ju). exists (fun n A sd SS => exists l m, sd = SNode NList l /\ (forall s, near0 s -> SS s = SNode NList (map (fun z => z s) m)) /\ J n A l m). split.
    - intros x X Hx. destruct (Ji x X Hx) as (l & m & E1 & E2 & HJ). exists (SNode NList l), (fun s => SNode NList (map (fun z => z s) m)). split; [cbn [init chain_gt]; rewrite E1; reflexivity|]. split; [intros s Hs; cbn [init chain_gt]; rewrite (E2 s Hs); reflexivity|]. exists l, m. auto.
    - intros n A sd SS u U q Q (l & m & -> & ES & HJ) Hu Hq Au Aq. destruct (Jl _ _ _ _ HJ) as (L1 & L2). destruct (Ju n A l m u U q Q HJ Hu Hq Au Aq) as (u' & l' & U' & m' & E1 & E2 & D & A' & HJ').
      exists u', (SNode NList l'), U', (fun s => SNode NList (map (fun z => z s) m')). split; [cbn [update chain_gt]; rewrite L1, Nat.eqb_refl, E1; reflexivity|].
      split; [intros s Hs; rewrite (ES s Hs); cbn [update chain_gt]; rewrite !map_length, L2, Nat.eqb_refl, (E2 s Hs); reflexivity|]. split; [exact D|]. split; [exact A'|]. exists l', m'. auto.
  Qed.

  (** ** The training loop *)
  Lemma derives_apply q Q u U : derives del q Q -> derives del u U -> avals u = avals q -> exists r S, @apply_updates dr q u = Ok r /\ (forall s, near0 s -> @apply_updates xr (Q s) (U s) = Ok (S s)) /\ derives del r S /\ avals r = avals q.
  Proof.
    intros Hq Hu A. pose proof Hu as (Wu & HU & _). pose proof Hq as (Wq & HQ & _).
    destruct (@apply_updates_spec dr q u) as (r & Er & (Ar & Wr) & He); [|exact Wq|exact Wu|].
    { unfold avals in A. pose proof (f_equal (tmap snd) (eq_sym A)) as Hs. rewrite !tmap_tmap in Hs. exact Hs. }
    set (S := fun s => match @apply_updates xr (Q s) (U s) with Ok z => z | Err _ => Q s end).
    assert (K : forall s, near0 s -> @apply_updates xr (Q s) (U s) = Ok (S s) /\ avals (S s) = avals q /\ trwf (S s) /\ forall pos x y, elt (Q s) pos = Some x -> elt (U s) pos = Some y -> elt (S s) pos = Some (xadd x y)).
    { intros s Hs. destruct (HU s Hs) as (AU & WU), (HQ s Hs) as (AQ & WQ). destruct (@apply_updates_spec xr (Q s) (U s)) as (z & Ez & (Az & Wz) & Hz); [|exact WQ|exact WU|].
      { assert (E : avals (Q s) = avals (U s)) by exact (eq_trans AQ (eq_sym (eq_trans AU A))). unfold avals in E. pose proof (f_equal (tmap snd) E) as Hp. rewrite !tmap_tmap in Hp. exact Hp. }
      assert (Eo : S s = z) by exact (@eq_ind_r _ (Ok z) (fun r => match r with Ok z => z | Err _ => Q s end = z) eq_refl _ Ez). rewrite Eo. split; [exact Ez|]. split; [exact (eq_trans Az AQ)|]. split; [exact Wz|]. intros pos x y Hx Hy. eapply eq_trans; [exact (Hz pos x y Hx Hy)|]. cbn zeta. rewrite !xconv. reflexivity. }
    exists r, S. split; [exact Er|]. split; [intros s Hs; apply (K s Hs)|]. split; [|exact Ar].
    apply (derives_of del); [exact Wr|intros s Hs; destruct (K s Hs) as (_ & A1 & W1 & _); split; [exact (eq_trans A1 (eq_sym Ar))|exact W1]|].
    intros pos y Hy. assert (N1 : elt q pos <> None) by (apply (elt_like q r pos Ar Wq Wr); exact (@eq_ind_r _ (Some y) (fun z => z <> None) ltac:(discriminate) _ Hy)). assert (N2 : elt u pos <> None) by (apply (elt_like u r pos (eq_trans Ar (eq_sym A)) Wu Wr); exact (@eq_ind_r _ (Some y) (fun z => z <> None) ltac:(discriminate) _ Hy)).
    destruct (elt q pos) as [a|] eqn:Ea; [|easy]. destruct (elt u pos) as [b|] eqn:Eb; [|easy]. destruct (derives_elt del q Q pos a Hq Ea) as (F1 & V1). destruct (derives_elt del u U pos b Hu Eb) as (F2 & V2).
    pose proof (He pos a b Ea Eb) as E. cbn zeta in E. rewrite !dconv in E. pose proof (eq_trans (eq_sym Hy) E) as E2. injection E2 as ->.
    exists (fun s => xadd (at_pos (Q s) pos) (at_pos (U s) pos)). split; [exact (fol_add del F32 F32 _ _ _ _ F1 F2)|]. intros s Hs. apply (K s Hs); [apply (V1 s Hs)|apply (V2 s Hs)].
  Qed.
  Lemma diff_fit (TD : @GT dr) (TX : R -> @GT xr) (GD : nat -> tree (gt dual) -> tree (gt dual)) (GX : R -> nat -> tree (gt XR) -> tree (gt XR)) p Ps : @differentiates P del TD TX -> derives del p Ps ->
    (forall i q Q, derives del q Q -> avals q = avals p -> derives del (GD i q) (fun s => GX s i (Q s)) /\ avals (GD i q) = avals p) ->
    forall n, exists x sd X SS, @fit dr TD GD n p = Ok (x, sd) /\ (forall s, near0 s -> @fit xr (TX s) (GX s) n (Ps s) = Ok (X s, SS s)) /\ derives del x X /\ avals x = avals p.
  Proof.
    intros (I & Hi & Hu) Hp HG n.
    enough (exists x sd X SS, @fit dr TD GD n p = Ok (x, sd) /\ (forall s, near0 s -> @fit xr (TX s) (GX s) n (Ps s) = Ok (X s, SS s)) /\ derives del x X /\ avals x = avals p /\ I n (avals p) sd SS) as (x & sd & X & SS & H1 & H2 & H3 & H4 & _) by (exists x, sd, X, SS; auto).
    induction n as [|n (x & sd & X & SS & E1 & E2 & D & A & HI)].
    - destruct (Hi p Ps Hp) as (sd & SS & E1 & E2 & HI). exists p, sd, Ps, SS. split; [cbn [fit]; rewrite E1; reflexivity|]. split; [intros s Hs; cbn [fit]; rewrite (E2 s Hs); reflexivity|]. auto.
    - destruct (HG n x X D A) as (DG & AG). destruct (Hu n (avals p) sd SS (GD n x) _ x X HI DG D AG A) as (u & sd' & U & SS' & E3 & E4 & DU & AU & HI').
      destruct (derives_apply x X u U D DU (eq_trans AU (eq_sym A))) as (r & S & E5 & E6 & DR & AR). exists r, sd', S, SS'.
      split; [exact (@fit_next dr TD GD n p x sd u sd' r E1 E3 E5)|].
      split; [intros s Hs; exact (@fit_next xr (TX s) (GX s) n (Ps s) (X s) (SS s) (U s) (SS' s) (S s) (E2 s Hs) (E4 s Hs) (E6 s Hs))|]. split; [exact DR|]. split; [exact (eq_trans AR A)|exact HI'].
  Qed.
End Through.

Lemma refines_lr `{O : Ops} (L : lrate) : refines true (scale_by_learning_rate L) (m_fun (fun n d g _ => fmul d (fcast d (fneg (rate L (cnt n)))) g)).
Proof. destruct L as [x|f]; cbn [scale_by_learning_rate rate]; [apply refines_scale|apply (refines_schedule (fun c => fneg (f c)))]. Qed.
(** A hyper-parameter family with values in [0, 1), in [0, 1]. *)
Definition unit_on (del : R) (B : R -> XR) : Prop := forall s, near0 del s -> exists r, B s = Fin r /\ 0 <= r < 1.

Section Machines.
  Context {P : Platform} (del : R) (Hdel : 0 < del).
  Notation dr := (DualOps P).
  Notation xr := (XROps P).
  Notation follows := (follows_on del).
  Notation nonneg := (nonneg_on del).
  Notation pos := (pos_on del).
  Notation unit01 := (unit_on del).
  Lemma sim_fun (f : nat -> fdt -> dual -> dual -> dual) (g : R -> nat -> fdt -> XR -> XR -> XR) :
    (forall n d a A b B, follows a A -> follows b B -> follows (f n d a b) (fun s => g s n d (A s) (B s))) -> @simulates P del (@m_fun dr f) (fun s => @m_fun xr (g s)).
  Proof. intros H. exists (fun _ _ _ => True). split; [intros; exact I|]. intros n d a A b B e E Ha Hb _. split; [|exact I]. cbn [m_fun m_step fst]. now apply H. Qed.
  Lemma sim_identity : @simulates P del (@mid dr) (fun _ => @mid xr).
  Proof. exists (fun _ _ _ => True). split; [intros; exact I|]. intros n d a A b B e E Ha Hb _. split; [|exact I]. exact Ha. Qed.
  Lemma fol_cast d d' x X : follows x X -> follows (@fcast dr d x) (fun s => @fcast xr d' (X s)).
  Proof. exact (fun H => H). Qed.
  Lemma fol_conv d d' e e' x X : follows x X -> follows (@conv dr d e x) (fun s => @conv xr d' e' (X s)).
  Proof. intros H. rewrite dconv. apply (fol_ext del x X _ H). intros s _. now rewrite xconv. Qed.
  Lemma fol_zero : follows (@fzero dr) (fun _ => @fzero xr).
  Proof. apply fol_lit. Qed.
  Lemma fol_py1m x X : follows x X -> follows (@py1m dr x) (fun s => @py1m xr (X s)).
  Proof. intros H. apply fol_sub; [apply fol_lit|exact H]. Qed.
  Lemma fol_moment k d b B g G t T : follows b B -> follows g G -> follows t T -> follows (@e_moment dr b k d g t) (fun s => @e_moment xr (B s) k d (G s) (T s)).
  Proof.
    intros Hb Hg Ht. unfold e_moment. apply fol_add; (apply fol_mul; [|]).
    - apply fol_cast, fol_py1m, Hb.
    - destruct k as [|[|k]]; [apply fol_mul; exact Hg|exact Hg|apply fol_mul; exact Hg].
    - apply fol_cast, Hb.
    - exact Ht.
  Qed.
  Lemma fol_bc n b B : follows b B -> unit01 B -> follows (@bias_corr dr b (cnt (S n))) (fun s => @bias_corr xr (B s) (cnt (S n))) /\ pos (fun s => @bias_corr xr (B s) (cnt (S n))).
  Proof.
    intros (f & Hf & Ef) HB. pose proof (satcount_pos n) as Hs. split.
    - exists (fun s => 1 - f s ^ satcount (S n)). split.
      + unfold bias_corr, pow_count. cbn [fcast DualOps]. assert (E : @fofZ dr (cnt (S n)) = fd (INR (satcount (S n))) 0) by (unfold fofZ; cbn [flit DualOps]; unfold dconst, fd; now rewrite Q2R_Z, cnt_IZR).
        rewrite E. apply (cf_sub (P := P) defdt (@fone dr)); [|apply cf_pow_nat; [lia|exact Hf]]. unfold fone. cbn [flit DualOps]. unfold dconst. rewrite Q2R_1. apply (cf_const 1).
      + intros s Hn. rewrite Ef by exact Hn. apply xbias.
    - intros s Hn. destruct (HB s Hn) as (r & -> & Hr). rewrite xbias. eexists. split; [reflexivity|]. now apply bc_pos.
  Qed.
  Lemma fol_e_bc n d b B x X : follows b B -> unit01 B -> follows x X -> follows (@e_bc dr b (cnt (S n)) d x) (fun s => @e_bc xr (B s) (cnt (S n)) d (X s)).
  Proof.
    intros Hb HB Hx. destruct (fol_bc n b B Hb HB) as (H1 & H2). unfold e_bc. apply (fol_div del Hdel); [|exact Hx|apply fol_conv, H1].
    intros s Hs. destruct (H2 s Hs) as (r & Er & Hr). exists r. split; [|exact Hr]. rewrite xconv. exact Er.
  Qed.
  Lemma nn_e_bc n d b B X : follows b B -> unit01 B -> nonneg X -> nonneg (fun s => @e_bc xr (B s) (cnt (S n)) d (X s)).
  Proof.
    intros Hb HB Hx. destruct (fol_bc n b B Hb HB) as (_ & H2). unfold e_bc. apply nn_div; [exact Hx|].
    intros s Hs. destruct (H2 s Hs) as (r & Er & Hr). exists r. split; [|exact Hr]. rewrite xconv. exact Er.
  Qed.
  Lemma nn_unit B : unit01 B -> nonneg B.
  Proof. intros H s Hs. destruct (H s Hs) as (r & E & Hr). exists r. split; [exact E|lra]. Qed.
  Lemma nn_py1m B : unit01 B -> nonneg (fun s => @py1m xr (B s)).
  Proof. intros H s Hs. destruct (H s Hs) as (r & -> & Hr). rewrite xpy1m. exists (1 - r). split; [reflexivity|lra]. Qed.
  Lemma nn_moment d B g G T : unit01 B -> follows g G -> nonneg T -> nonneg (fun s => @e_moment xr (B s) 2 d (G s) (T s)).
  Proof. intros HB Hg Ht. unfold e_moment. apply nn_add; apply nn_mul; [apply nn_py1m, HB|apply (nn_sq del d g), Hg|apply nn_unit, HB|exact Ht]. Qed.
  Lemma fol_e_adam d eps EPS er ER m M v V : follows eps EPS -> nonneg EPS -> follows er ER -> pos ER -> follows m M -> follows v V -> nonneg V ->
    follows (@e_adam dr eps er d m v) (fun s => @e_adam xr (EPS s) (ER s) d (M s) (V s)).
  Proof.
    intros He Ne Hr Pr Hm Hv Nv. unfold e_adam. assert (Pv : pos (fun s => @fadd xr d (V s) (@fcast xr d (ER s)))) by (apply pos_add; [exact Nv|exact Pr]).
    assert (Fv : follows (@fadd dr d v (@fcast dr d er)) (fun s => @fadd xr d (V s) (@fcast xr d (ER s)))) by (apply fol_add; [exact Hv|exact Hr]).
    apply (fol_div del Hdel); [|exact Hm|apply fol_add; [apply (fol_sqrt del Hdel); [exact Pv|exact Fv]|exact He]].
    intros s Hs. destruct (Pv s Hs) as (r & Er & Hr0). destruct (Ne s Hs) as (e & Ee & He0). pose proof (sqrt_lt_R0 _ Hr0). exists (sqrt r + e). split; [|lra].
    transitivity (@fadd xr d (@fsqrt xr d (Fin r)) (Fin e)); [exact (f_equal2 (fun a b => @fadd xr d (@fsqrt xr d a) b) Er Ee)|]. cbn [fsqrt XROps]. rewrite xsqrt_fin by lra. reflexivity.
  Qed.
  (** second moment fed with the gradient (adam) or with the deviation from the first moment (belief) *)
  Lemma sim_adam b1 B1 b2 B2 eps EPS er ER : follows b1 B1 -> unit01 B1 -> follows b2 B2 -> unit01 B2 -> follows eps EPS -> nonneg EPS -> follows er ER -> pos ER ->
    @simulates P del (@m_adam dr b1 b2 eps er) (fun s => @m_adam xr (B1 s) (B2 s) (EPS s) (ER s)).
  Proof.
    intros H1 U1 H2 U2 He Ne Hr Pr. exists (fun _ e E => follows (fst e) (fun s => fst (E s)) /\ follows (snd e) (fun s => snd (E s)) /\ nonneg (fun s => snd (E s))). split.
    - intros d x X _. cbn [m_adam m_adamlike m_init fst snd]. split; [apply fol_zero|]. split; [apply fol_zero|]. intros s _. exists 0. split; [apply (f0 P)|lra].
    - intros n d g G p Q e E Hg _ (F1 & F2 & N2). cbn [m_adam m_adamlike m_step fst snd].
      assert (M1 := fol_moment 1 d b1 B1 g G _ _ H1 Hg F1). assert (M2 := fol_moment 2 d b2 B2 g G _ _ H2 Hg F2). assert (N3 := nn_moment d B2 g G _ U2 Hg N2).
      split; [|split; [exact M1|split; [exact M2|exact N3]]]. apply fol_e_adam; try assumption; [apply fol_e_bc; assumption|apply fol_e_bc; assumption|]. apply (nn_e_bc n d b2 B2 _ H2 U2 N3).
  Qed.
  Lemma sim_belief b1 B1 b2 B2 eps EPS er ER : follows b1 B1 -> unit01 B1 -> follows b2 B2 -> unit01 B2 -> follows eps EPS -> nonneg EPS -> follows er ER -> pos ER ->
    @simulates P del (@m_belief dr b1 b2 eps er) (fun s => @m_belief xr (B1 s) (B2 s) (EPS s) (ER s)).
  Proof.
    intros H1 U1 H2 U2 He Ne Hr Pr. exists (fun _ e E => follows (fst e) (fun s => fst (E s)) /\ follows (snd e) (fun s => snd (E s)) /\ nonneg (fun s => snd (E s))). split.
    - intros d x X _. cbn [m_belief m_adamlike m_init fst snd]. split; [apply fol_zero|]. split; [apply fol_zero|]. intros s _. exists 0. split; [apply (f0 P)|lra].
    - intros n d g G p Q e E Hg _ (F1 & F2 & N2). cbn [m_belief m_adamlike m_step fst snd]. assert (Hd := fol_sub del d d g G _ _ Hg F1).
      assert (M1 := fol_moment 1 d b1 B1 g G _ _ H1 Hg F1). assert (M2 := fol_moment 2 d b2 B2 _ _ _ _ H2 Hd F2). assert (N3 := nn_moment d B2 _ _ _ U2 Hd N2).
      split; [|split; [exact M1|split; [exact M2|exact N3]]]. apply fol_e_adam; try assumption; [apply fol_e_bc; assumption|apply fol_e_bc; assumption|]. apply (nn_e_bc n d b2 B2 _ H2 U2 N3).
  Qed.
  Lemma sim_rms b B eps EPS i0 I0 : follows b B -> unit01 B -> follows eps EPS -> pos EPS -> follows i0 I0 -> nonneg I0 ->
    @simulates P del (@m_rms dr b eps i0) (fun s => @m_rms xr (B s) (EPS s) (I0 s)).
  Proof.
    intros Hb UB He Pe Hi Ni. exists (fun _ e E => follows e E /\ nonneg E). split; [intros d x X _; cbn [m_rms m_init]; split; [exact Hi|exact Ni]|].
    intros n d g G p Q e E Hg _ (F & N). cbn [m_rms m_step fst snd]. assert (M2 := fol_moment 2 d b B g G _ _ Hb Hg F). assert (N3 := nn_moment d B g G _ UB Hg N).
    split; [|split; [exact M2|exact N3]]. apply fol_mul; [exact Hg|]. unfold e_rsqrt. apply (fol_rsqrt del Hdel); [apply pos_add; [exact N3|exact Pe]|apply fol_add; [exact M2|exact He]].
  Qed.
  (** With a positive accumulator the guard of adagrad is never taken. *)
  Lemma sim_rss eps EPS i0 I0 : follows eps EPS -> nonneg EPS -> follows i0 I0 -> pos I0 -> @simulates P del (@m_rss dr i0 eps) (fun s => @m_rss xr (I0 s) (EPS s)).
  Proof.
    intros He Pe Hi Ni. exists (fun _ e E => follows e E /\ pos E). split; [intros d x X _; cbn [m_rss m_init]; split; [exact Hi|exact Ni]|].
    intros n d g G p Q e E Hg _ (F & N). cbn [m_rss m_step fst snd].
    assert (M2 : follows (@fadd dr d (@fmul dr d g g) e) (fun s => @fadd xr d (@fmul xr d (G s) (G s)) (E s))) by (apply fol_add; [apply fol_mul; exact Hg|exact F]).
    assert (P2 : pos (fun s => @fadd xr d (@fmul xr d (G s) (G s)) (E s))) by (apply pos_add; [apply (nn_sq del d g), Hg|exact N]).
    split; [|split; [exact M2|exact P2]]. apply fol_mul; [|exact Hg]. unfold e_invsqrt.
    set (w := @fadd dr d (@fmul dr d g g) e) in *. set (W := fun s => @fadd xr d (@fmul xr d (G s) (G s)) (E s)) in *.
    assert (Ew : @flt dr (@fcast dr d (@fzero dr)) w = true).
    { destruct M2 as (f & (t & -> & _) & Ef). destruct (P2 0 (at0 del Hdel)) as (r & Er & Hr). rewrite (Ef 0 (at0 del Hdel)) in Er. injection Er as ->. cbn [flt fcast DualOps]. unfold fzero. cbn [flit DualOps]. unfold dconst, fd. cbn [fst]. rewrite Q2R_0. unfold xlt. destruct (Rlt_dec 0 r); [reflexivity|lra]. }
    rewrite Ew. assert (P3 : pos (fun s => @fadd xr d (W s) (@fcast xr d (EPS s)))).
    { intros s Hs. destruct (P2 s Hs) as (r & Er & Hr). destruct (Pe s Hs) as (a & Ea & Ha). exists (r + a). split; [exact (f_equal2 (@fadd xr d) Er Ea)|lra]. }
    eapply fol_ext; [apply (fol_rsqrt del Hdel d d _ _ P3); apply fol_add; [exact M2|exact He]|]. intros s Hs. cbn beta. destruct (P2 s Hs) as (r & Er & Hr).
    assert (Eb : @flt xr (@fcast xr d (@fzero xr)) (W s) = true) by (rewrite Er; cbn [flt fcast XROps]; rewrite (f0 P); unfold xlt; destruct (Rlt_dec 0 r); [reflexivity|lra]).
    change (@fadd xr d (@fmul xr d (G s) (G s)) (E s)) with (W s). rewrite Eb. reflexivity.
  Qed.
  Lemma sim_trace b B nest : follows b B -> @simulates P del (@m_trace dr b nest) (fun s => @m_trace xr (B s) nest).
  Proof.
    intros Hb. exists (fun _ e E => follows e E). split; [intros d x X _; apply fol_zero|]. intros n d g G p Q e E Hg _ F. cbn [m_trace m_step fst snd].
    assert (M := fol_add del d d _ _ _ _ Hg (fol_mul del d d _ _ _ _ (fol_cast d d _ _ Hb) F)). split; [|exact M]. destruct nest; [|exact M]. apply fol_add; [exact Hg|]. apply fol_mul; [exact Hb|exact M].
  Qed.
End Machines.

(** ** Specification: the optimisers considered, with hyper-parameters that all depend on s *)
(** The learning rate, fixed or scheduled, carries at every count the derivative of the family of learning rates. *)
Definition rates `{P : Platform} (del : R) (L : @lrate (DualOps P)) (LX : R -> @lrate (XROps P)) : Prop :=
  forall c, follows_on del (@rate (DualOps P) L c) (fun s => @rate (XROps P) (LX s) c).
(** A transformation on dual numbers, and the family of transformations on numbers it should differentiate. *)
Inductive smooth_part `{P : Platform} (del : R) : @GT (DualOps P) -> (R -> @GT (XROps P)) -> Prop :=
| sp_identity : smooth_part del (@identity (DualOps P)) (fun _ => @identity (XROps P))
| sp_scale c C : follows_on del c C -> smooth_part del (@scale (DualOps P) c) (fun s => @scale (XROps P) (C s))
| sp_lr L LX : rates del L LX -> smooth_part del (@scale_by_learning_rate (DualOps P) L) (fun s => @scale_by_learning_rate (XROps P) (LX s))
| sp_wd c C : follows_on del c C -> smooth_part del (@add_decayed_weights (DualOps P) c) (fun s => @add_decayed_weights (XROps P) (C s))
| sp_trace b B nest : follows_on del b B -> smooth_part del (@trace (DualOps P) b nest None) (fun s => @trace (XROps P) (B s) nest None)
| sp_adam b1 B1 b2 B2 eps EPS er ER : follows_on del b1 B1 -> unit_on del B1 -> follows_on del b2 B2 -> unit_on del B2 -> follows_on del eps EPS -> nonneg_on del EPS -> follows_on del er ER -> pos_on del ER ->
    smooth_part del (@scale_by_adam (DualOps P) b1 b2 eps er) (fun s => @scale_by_adam (XROps P) (B1 s) (B2 s) (EPS s) (ER s))
| sp_belief b1 B1 b2 B2 eps EPS er ER : follows_on del b1 B1 -> unit_on del B1 -> follows_on del b2 B2 -> unit_on del B2 -> follows_on del eps EPS -> nonneg_on del EPS -> follows_on del er ER -> pos_on del ER ->
    smooth_part del (@scale_by_belief (DualOps P) b1 b2 eps er) (fun s => @scale_by_belief (XROps P) (B1 s) (B2 s) (EPS s) (ER s))
| sp_rms b B eps EPS i0 I0 : follows_on del b B -> unit_on del B -> follows_on del eps EPS -> pos_on del EPS -> follows_on del i0 I0 -> nonneg_on del I0 ->
    smooth_part del (@scale_by_rms (DualOps P) b eps i0) (fun s => @scale_by_rms (XROps P) (B s) (EPS s) (I0 s))
| sp_rss i0 I0 eps EPS : follows_on del i0 I0 -> pos_on del I0 -> follows_on del eps EPS -> nonneg_on del EPS ->
    smooth_part del (@scale_by_rss (DualOps P) i0 eps) (fun s => @scale_by_rss (XROps P) (I0 s) (EPS s)).
(** The gradient function on dual numbers carries the derivative of the family of gradient functions: whatever the point carries, the gradient there carries the derivative of the gradients at the family of points. *)
Definition smooth_grads `{P : Platform} (del : R) (A : tree (fdt * list nat)) (GD : nat -> tree (gt dual) -> tree (gt dual)) (GX : R -> nat -> tree (gt XR) -> tree (gt XR)) : Prop :=
  forall i q Q, derives del q Q -> avals q = A -> derives del (GD i q) (fun s => GX s i (Q s)) /\ avals (GD i q) = A.

Lemma part_diff `{P : Platform} (del : R) TD TX : 0 < del -> smooth_part del TD TX -> differentiates del TD TX.
Proof.
  intros Hd H. destruct H.
  - apply (diff_machine del true _ _ (@mid (DualOps P)) (fun _ => @mid (XROps P))); [exact (@refines_identity (DualOps P))|intros s _; exact (@refines_identity (XROps P))|]. apply sim_identity.
  - eapply diff_machine; [apply (@refines_scale (DualOps P))|intros s _; apply (@refines_scale (XROps P))|]. apply sim_fun. intros n d a A b B Ha _. now apply fol_mul.
  - eapply diff_machine; [apply (@refines_lr (DualOps P))|intros s _; apply (@refines_lr (XROps P))|]. apply sim_fun. intros n d a A b B Ha _. apply fol_mul; [|exact Ha]. apply (fol_neg del), (H (cnt n)).
  - eapply diff_machine; [apply (@refines_wd (DualOps P))|intros s _; apply (@refines_wd (XROps P))|]. apply sim_fun. intros n d a A b B Ha Hb. apply fol_add; [exact Ha|]. now apply fol_mul.
  - eapply diff_machine; [apply (@refines_trace (DualOps P))|intros s _; apply (@refines_trace (XROps P))|]. now apply sim_trace.
  - eapply diff_machine; [apply (@refines_adam (DualOps P))|intros s _; apply (@refines_adam (XROps P))|]. now apply sim_adam.
  - eapply diff_machine; [apply (@refines_belief (DualOps P))|intros s _; apply (@refines_belief (XROps P))|]. now apply sim_belief.
  - eapply diff_machine; [apply (@refines_rms (DualOps P))|intros s _; apply (@refines_rms (XROps P))|]. now apply sim_rms.
  - eapply diff_machine; [apply (@refines_rss (DualOps P))|intros s _; apply (@refines_rss (XROps P))|]. now apply sim_rss.
Qed.

(*@ C100_rules : Each differentiable operation, run on numbers that carry a derivative (the pair jax.jvp propagates), returns the value and the derivative of the result: sum, difference, product, quotient, negation, square root, reciprocal square root, exponential, logarithms, cosine, natural and real powers, and - away from their kinks - absolute value, maximum and minimum. *)
Lemma dual_rules : forall `{P : Platform} (d : fdt) (x y : dual) (f g : R -> R) (k : nat), carries_fun x f -> carries_fun y g ->
  carries_fun (@fadd (DualOps P) d x y) (fun s => f s + g s) /\
  carries_fun (@fsub (DualOps P) d x y) (fun s => f s - g s) /\
  carries_fun (@fmul (DualOps P) d x y) (fun s => f s * g s) /\
  carries_fun (@fneg (DualOps P) x) (fun s => - f s) /\
  carries_fun (@fexp (DualOps P) d x) (fun s => exp (f s)) /\
  carries_fun (@fcos (DualOps P) d x) (fun s => cos (f s)) /\
  (g 0 <> 0 -> carries_fun (@fdiv (DualOps P) d x y) (fun s => f s / g s)) /\
  (0 < f 0 -> carries_fun (@fsqrt (DualOps P) d x) (fun s => sqrt (f s))) /\
  (0 < f 0 -> carries_fun (@frsqrt (DualOps P) d x) (fun s => 1 / sqrt (f s))) /\
  (0 < f 0 -> carries_fun (@flog (DualOps P) d x) (fun s => ln (f s))) /\
  (-1 < f 0 -> carries_fun (@flog1p (DualOps P) d x) (fun s => ln (1 + f s))) /\
  ((1 <= k)%nat -> carries_fun (@fpow (DualOps P) d x (fd (INR k) 0)) (fun s => f s ^ k)) /\
  (0 < f 0 -> g 0 <> 0 -> carries_fun (@fpow (DualOps P) d x y) (fun s => Rpower (f s) (g s))) /\
  (f 0 <> 0 -> carries_fun (@fabs (DualOps P) x) (fun s => Rabs (f s))) /\
  (f 0 <> g 0 -> carries_fun (@fmax (DualOps P) x y) (fun s => Rmax (f s) (g s))) /\
  (f 0 <> g 0 -> carries_fun (@fmin (DualOps P) x y) (fun s => Rmin (f s) (g s))).
Proof.
  intros P d x y f g k Hx Hy. split; [now apply cf_add|]. split; [now apply cf_sub|]. split; [now apply cf_mul|]. split; [now apply cf_neg|]. split; [now apply cf_exp|]. split; [now apply cf_cos|].
  split; [intros; now apply cf_div|]. split; [intros; now apply cf_sqrt|]. split; [intros; now apply cf_rsqrt|]. split; [intros; now apply cf_log|]. split; [intros; now apply cf_log1p|]. split; [intros; now apply cf_pow_nat|].
  split; [intros; now apply cf_pow_pos|]. split; [intros; now apply cf_abs|]. split; [intros; now apply cf_max|intros; now apply cf_min].
Qed.
(*@ C100_training : Differentiating through training is exact.  Take any chain of identity, scale, scale by a fixed or scheduled learning rate, add_decayed_weights, trace (nesterov or not), scale_by_adam and scale_by_belief with eps_root > 0, scale_by_rms with eps > 0 and scale_by_rss with a positive initial accumulator; let every hyper-parameter, every initial parameter and the gradient function depend on a number s (differentiably, hyper-parameters in range near s = 0).  Then for any number of steps the loop of update and apply_updates run on values that carry their derivatives succeeds, so does the ordinary loop for every s near 0, and every element of the final parameters carries exactly its value and its derivative with respect to s at 0. *)
Lemma training_differentiates : forall `{P : Platform} (del : R) (TDs : list (@GT (DualOps P))) (TXs : list (R -> @GT (XROps P))) p Ps GD GX (n : nat), 0 < del -> Forall2 (smooth_part del) TDs TXs -> derives del p Ps -> smooth_grads del (avals p) GD GX ->
  exists x sd X SS, @fit (DualOps P) (chain_gt TDs) GD n p = Ok (x, sd) /\ (forall s, Rabs s < del -> @fit (XROps P) (chain_gt (map (fun T => T s) TXs)) (GX s) n (Ps s) = Ok (X s, SS s)) /\
    avals x = avals p /\
    forall pos y, elt x pos = Some y -> exists f t, y = fd (f 0) t /\ derivable_pt_lim f 0 t /\ forall s, Rabs s < del -> elt (X s) pos = Some (Fin (f s)).
Proof.
  intros P del TDs TXs p Ps GD GX n Hd HF Hp HG.
  assert (HD : differentiates del (chain_gt TDs) (fun s => chain_gt (map (fun T => T s) TXs))).
  { apply diff_chain. clear - HF Hd. induction HF as [|a b l m H _ IH]; constructor; [|exact IH]. now apply part_diff. }
  destruct (diff_fit del _ _ GD GX p Ps HD Hp HG n) as (x & sd & X & SS & H1 & H2 & (_ & _ & H3) & H4). exists x, sd, X, SS. split; [exact H1|]. split; [exact H2|]. split; [exact H4|].
  intros pos y Hy. destruct (H3 pos y Hy) as (f & (t & E & Hf) & Ef). exists f, t. auto.
Qed.

(** ** The optimisers of alias.py *)
Inductive smooth_optimiser `{P : Platform} (del : R) : result (@GT (DualOps P)) -> (R -> result (@GT (XROps P))) -> Prop :=
| so_sgd L LX nest : rates del L LX -> smooth_optimiser del (@sgd (DualOps P) L None nest) (fun s => @sgd (XROps P) (LX s) None nest)
| so_momentum L LX b B nest : rates del L LX -> follows_on del b B -> smooth_optimiser del (@sgd (DualOps P) L (Some b) nest) (fun s => @sgd (XROps P) (LX s) (Some (B s)) nest)
| so_adam L LX b1 B1 b2 B2 eps EPS er ER : rates del L LX -> follows_on del b1 B1 -> unit_on del B1 -> follows_on del b2 B2 -> unit_on del B2 -> follows_on del eps EPS -> nonneg_on del EPS -> follows_on del er ER -> pos_on del ER ->
    smooth_optimiser del (@adam (DualOps P) L b1 b2 eps er) (fun s => @adam (XROps P) (LX s) (B1 s) (B2 s) (EPS s) (ER s))
| so_adamw L LX b1 B1 b2 B2 eps EPS er ER wd WD : rates del L LX -> follows_on del b1 B1 -> unit_on del B1 -> follows_on del b2 B2 -> unit_on del B2 -> follows_on del eps EPS -> nonneg_on del EPS -> follows_on del er ER -> pos_on del ER -> follows_on del wd WD ->
    smooth_optimiser del (@adamw (DualOps P) L b1 b2 eps er wd) (fun s => @adamw (XROps P) (LX s) (B1 s) (B2 s) (EPS s) (ER s) (WD s))
| so_adabelief L LX b1 B1 b2 B2 eps EPS : rates del L LX -> follows_on del b1 B1 -> unit_on del B1 -> follows_on del b2 B2 -> unit_on del B2 -> follows_on del eps EPS -> nonneg_on del EPS ->
    smooth_optimiser del (@adabelief (DualOps P) L b1 b2 eps) (fun s => @adabelief (XROps P) (LX s) (B1 s) (B2 s) (EPS s))
| so_adagrad L LX i0 I0 eps EPS : rates del L LX -> follows_on del i0 I0 -> pos_on del I0 -> follows_on del eps EPS -> nonneg_on del EPS ->
    smooth_optimiser del (@adagrad (DualOps P) L i0 eps) (fun s => @adagrad (XROps P) (LX s) (I0 s) (EPS s))
| so_rmsprop L LX b B eps EPS i0 I0 nest : rates del L LX -> follows_on del b B -> unit_on del B -> follows_on del eps EPS -> pos_on del EPS -> follows_on del i0 I0 -> nonneg_on del I0 ->
    smooth_optimiser del (@rmsprop (DualOps P) L b eps i0 false None nest) (fun s => @rmsprop (XROps P) (LX s) (B s) (EPS s) (I0 s) false None nest)
| so_rmsprop_momentum L LX b B eps EPS i0 I0 m M nest : rates del L LX -> follows_on del b B -> unit_on del B -> follows_on del eps EPS -> pos_on del EPS -> follows_on del i0 I0 -> nonneg_on del I0 -> follows_on del m M ->
    smooth_optimiser del (@rmsprop (DualOps P) L b eps i0 false (Some m) nest) (fun s => @rmsprop (XROps P) (LX s) (B s) (EPS s) (I0 s) false (Some (M s)) nest).
(*@ C100_optimisers : So for sgd (with and without momentum), adam, adamw, adabelief, adagrad and rmsprop (with and without momentum): differentiating the whole training run with respect to the learning rate (or anything in its schedule), the decay rates, eps, eps_root, the weight decay, the momentum, the initial parameters or anything the gradients depend on gives exactly the derivative of the trained parameters; for adam and adamw this needs eps_root > 0. *)
Lemma optimisers_differentiate : forall `{P : Platform} (del : R) RD RX p Ps GD GX (n : nat), 0 < del -> smooth_optimiser del RD RX -> derives del p Ps -> smooth_grads del (avals p) GD GX ->
  exists TD TX x sd X SS, RD = Ok TD /\ (forall s, RX s = Ok (TX s)) /\ @fit (DualOps P) TD GD n p = Ok (x, sd) /\ (forall s, Rabs s < del -> @fit (XROps P) (TX s) (GX s) n (Ps s) = Ok (X s, SS s)) /\
    avals x = avals p /\
    forall pos y, elt x pos = Some y -> exists f t, y = fd (f 0) t /\ derivable_pt_lim f 0 t /\ forall s, Rabs s < del -> elt (X s) pos = Some (Fin (f s)).
Proof.
  intros P del RD RX p Ps GD GX n Hd HO Hp HG.
  assert (K : exists TDs TXs, RD = Ok (chain_gt TDs) /\ (forall s, RX s = Ok (chain_gt (map (fun T => T s) TXs))) /\ Forall2 (smooth_part del) TDs TXs).
  { destruct HO; eexists _, _; (split; [reflexivity|]).
    - split; [intros s; exact (eq_refl (Ok (chain_gt (map (fun T => T s) [(fun _ => @identity (XROps P)); (fun s => @scale_by_learning_rate (XROps P) (LX s))]))))|]. repeat constructor; assumption.
    - split; [intros s; exact (eq_refl (Ok (chain_gt (map (fun T => T s) [(fun s => @trace (XROps P) (B s) nest None); (fun s => @scale_by_learning_rate (XROps P) (LX s))]))))|]. repeat constructor; assumption.
    - split; [intros s; exact (eq_refl (Ok (chain_gt (map (fun T => T s) [(fun s => @scale_by_adam (XROps P) (B1 s) (B2 s) (EPS s) (ER s)); (fun s => @scale_by_learning_rate (XROps P) (LX s))]))))|]. repeat constructor; assumption.
    - split; [intros s; exact (eq_refl (Ok (chain_gt (map (fun T => T s) [(fun s => @scale_by_adam (XROps P) (B1 s) (B2 s) (EPS s) (ER s)); (fun s => @add_decayed_weights (XROps P) (WD s)); (fun s => @scale_by_learning_rate (XROps P) (LX s))]))))|]. repeat constructor; assumption.
    - split; [intros s; exact (eq_refl (Ok (chain_gt (map (fun T => T s) [(fun s => @scale_by_belief (XROps P) (B1 s) (B2 s) (EPS s) (@flit (XROps P) (1 # 10000000000000000))); (fun s => @scale_by_learning_rate (XROps P) (LX s))]))))|]. constructor; [|repeat constructor; assumption].
      apply (sp_belief del b1 B1 b2 B2 eps EPS _ (fun _ => @flit (XROps P) (1 # 10000000000000000))); try assumption; [apply fol_lit|]. intros s _. eexists. split; [reflexivity|]. unfold Q2R. cbn. lra.
    - split; [intros s; exact (eq_refl (Ok (chain_gt (map (fun T => T s) [(fun s => @scale_by_rss (XROps P) (I0 s) (EPS s)); (fun s => @scale_by_learning_rate (XROps P) (LX s))]))))|]. repeat constructor; assumption.
    - split; [intros s; exact (eq_refl (Ok (chain_gt (map (fun T => T s) [(fun s => @scale_by_rms (XROps P) (B s) (EPS s) (I0 s)); (fun s => @scale_by_learning_rate (XROps P) (LX s)); (fun _ => @identity (XROps P))]))))|]. repeat constructor; assumption.
    - split; [intros s; exact (eq_refl (Ok (chain_gt (map (fun T => T s) [(fun s => @scale_by_rms (XROps P) (B s) (EPS s) (I0 s)); (fun s => @scale_by_learning_rate (XROps P) (LX s)); (fun s => @trace (XROps P) (M s) nest None)]))))|]. repeat constructor; assumption. }
  destruct K as (TDs & TXs & E1 & E2 & HF). destruct (training_differentiates del TDs TXs p Ps GD GX n Hd HF Hp HG) as (x & sd & X & SS & H1 & H2 & H3 & H4).
  exists (chain_gt TDs), (fun s => chain_gt (map (fun T => T s) TXs)), x, sd, X, SS. auto 10.
Qed.

(** ** eps_root = 0 *)
Section EpsRoot.
  Context {P : Platform}.
  Notation dr := (DualOps P).
  Lemma carries_line a t : carries_fun (fd a t) (fun s => a + t * s).
  Proof.
    exists t. split; [f_equal; ring|]. pose proof (derivable_pt_lim_plus (fun _ => a) (fun s => t * s) 0 0 (t * 1) (derivable_pt_lim_const a 0) (derivable_pt_lim_scal id t 0 1 (derivable_pt_lim_id 0))) as H.
    replace (0 + t * 1) with t in H by ring. exact H.
  Qed.
  Lemma bc_dual b t n : exists w, @bias_corr dr (fd b t) (cnt (S n)) = fd (1 - b ^ satcount (S n)) w.
  Proof.
    pose proof (satcount_pos n) as Hs. destruct (cf_pow_nat (P := P) defdt (fd b t) (fun s => b + t * s) (satcount (S n)) ltac:(lia) (carries_line b t)) as (u & Eu & _).
    assert (E : @fofZ dr (cnt (S n)) = fd (INR (satcount (S n))) 0) by (unfold fofZ; cbn [flit DualOps]; unfold dconst, fd; now rewrite Q2R_Z, cnt_IZR).
    exists (0 - u). unfold bias_corr, pow_count. rewrite E. change (@fsub dr defdt (@fone dr) (@fpow dr defdt (fd b t) (fd (INR (satcount (S n))) 0)) = fd (1 - b ^ satcount (S n)) (0 - u)).
    assert (E1 : @fone dr = fd 1 0) by (unfold fone; cbn [flit DualOps]; unfold dconst, fd; now rewrite Q2R_1). eapply eq_trans; [exact (f_equal2 (@fsub dr defdt) E1 Eu)|]. rewrite d_sub, Rmult_0_r, Rplus_0_r. reflexivity.
  Qed.
  Lemma py1m_dual b t : @py1m dr (fd b t) = fd (1 - b) (- t).
  Proof.
    assert (E1 : @fone dr = fd 1 0) by (unfold fone; cbn [flit DualOps]; unfold dconst, fd; now rewrite Q2R_1). eapply eq_trans; [exact (f_equal (fun z => @fsub dr F64 z (fd b t)) E1)|]. rewrite d_sub. f_equal. ring.
  Qed.
  Lemma zero_moments b1 t1 b2 t2 eps er d x gs ps n : (forall i, (i < n)%nat -> exists u, gs i = fd 0 u) ->
    exists u, @mst dr (@m_adam dr (fd b1 t1) (fd b2 t2) eps er) d x gs ps n = (fd 0 u, fd 0 0).
  Proof.
    induction n as [|n IH]; intros Hg.
    - exists 0. cbn [mst m_adam m_adamlike m_init]. unfold fzero. cbn [fcast flit DualOps]. unfold dconst, fd. now rewrite Q2R_0.
    - destruct IH as (u & E); [intros i Hi; apply Hg; lia|]. cbn [mst]. rewrite E. destruct (Hg n ltac:(lia)) as (w & Ew). rewrite Ew. cbn [m_adam m_adamlike m_step snd fst]. unfold e_moment. rewrite !py1m_dual. cbn [fcast DualOps].
      rewrite !d_mul, !d_add. eexists. f_equal; unfold fd; f_equal; f_equal; ring.
  Qed.
End EpsRoot.
(*@ C100_eps_root : The side condition on eps_root is needed, as the documentation of adam says: with eps_root = 0 (the default) and an element whose gradients have all been zero so far, differentiating through scale_by_adam gives NaN as the tangent of that element's update at every step, whatever tangents the gradients, the decay rates and eps carry - although the update itself is 0. *)
Lemma adam_meta_nan : forall `{P : Platform} (b1 t1 b2 t2 eps te : R) (p : tree (gt dual)) H, 0 <= b1 < 1 -> 0 <= b2 < 1 -> 0 < eps -> trwf p -> @hist_ok (DualOps P) true p H ->
  exists outs, @trains (DualOps P) (@scale_by_adam (DualOps P) (fd b1 t1) (fd b2 t2) (fd eps te) (fd 0 0)) p H outs /\ length outs = length H /\
    forall n pos u, (n < length H)%nat -> (forall i, (i <= n)%nat -> @helt (DualOps P) H i pos = Some (fd 0 (u i))) -> @oelt (DualOps P) outs n pos = Some (Fin 0, NaN).
Proof.
  intros P b1 t1 b2 t2 eps te p H B1 B2 He Wp HH. destruct (@refines_trains (DualOps P) true _ _ (@refines_adam (DualOps P) (fd b1 t1) (fd b2 t2) (fd eps te) (fd 0 0)) p H Wp HH) as (outs & Ht & Hl & _ & Hel).
  exists outs. split; [exact Ht|]. split; [exact Hl|]. intros n pos u Hn Hu. destruct (Hel n pos (fun i => fd 0 (u i)) (fun _ => fd 0 0) Hn Hu) as (x & _ & E); [discriminate|].
  eapply eq_trans; [exact E|]. f_equal. unfold mout. destruct (zero_moments b1 t1 b2 t2 (fd eps te) (fd 0 0) (leafdt p pos) x (fun i => fd 0 (u i)) (fun _ => fd 0 0) n) as (w & Ew); [intros i _; now exists (u i)|].
  eapply eq_trans; [exact (f_equal (fun e => fst (@m_step (DualOps P) (@m_adam (DualOps P) (fd b1 t1) (fd b2 t2) (fd eps te) (fd 0 0)) n (leafdt p pos) (fd 0 (u n)) (fd 0 0) e)) Ew)|]. cbn [m_adam m_adamlike m_step fst snd]. destruct (bc_dual (P := P) b1 t1 n) as (w1 & E1). destruct (bc_dual (P := P) b2 t2 n) as (w2 & E2). pose proof (bc_pos b1 n B1) as Q1. pose proof (bc_pos b2 n B2) as Q2.
  unfold e_adam, e_bc. rewrite !dconv, E1, E2. unfold e_moment. rewrite !py1m_dual. cbn [fcast DualOps]. rewrite !d_mul, !d_add, !d_div by lra.
  cbn [fsqrt fadd fdiv DualOps]. unfold dun, fd. cbn [fst snd].
  match goal with |- context [xsqrt (xadd (Fin ?v) (Fin 0))] => replace v with 0 by (field; lra) end. rewrite xadd_fin, xsqrt_fin by lra. rewrite Rplus_0_r, sqrt_0.
  match goal with |- context [xadd (Fin ?v) (Fin 0)] => replace v with 0 by (field; lra) end.
  rewrite !xadd_fin, !Rplus_0_r. f_equal.
  - rewrite xdiv_fin by lra. f_equal. field. lra.
  - rewrite xdiv_zero. rewrite rsgn_pos by lra. change (xinf 1) with PInf. assert (E0 : xmul (Fin 0) PInf = NaN).
    { unfold xmul, xsgn. rewrite rsgn_0. reflexivity. }
    rewrite E0. cbn [xadd]. unfold xmul at 1. cbn [xsgn xdiv]. destruct (Req_EM_T (0 + eps) 0) as [Hz|_]; [lra|]. reflexivity.
Qed.

(** ** Cases that meet the hypotheses *)
(** A gradient a x + c in every element (least squares), a and c depending on s as well. *)
Lemma affine_grads `{P : Platform} del A a AX c CX : follows_on del a AX -> follows_on del c CX ->
  smooth_grads (P := P) del A (fun _ q => emapt (fun d x => @fadd (DualOps P) d (@fmul (DualOps P) d a x) c) q) (fun s _ q => emapt (fun d x => @fadd (XROps P) d (@fmul (XROps P) d (AX s) x) (CX s)) q).
Proof.
  intros Ha Hc i q Q Hq Aq. pose proof Hq as (Wq & HQ & _). split; [|rewrite emapt_avals; exact Aq].
  apply derives_of; [now apply emapt_wf|intros s Hs; destruct (HQ s Hs) as (A1 & W1); split; [rewrite !emapt_avals; exact A1|now apply emapt_wf]|].
  intros pos y Hy. destruct (emapt_inv _ _ _ _ Hy) as (z & Ez & Ey). destruct (derives_elt del q Q pos z Hq Ez) as (F1 & V1).
  exists (fun s => @fadd (XROps P) (leafdt q pos) (@fmul (XROps P) (leafdt q pos) (AX s) (at_pos (Q s) pos)) (CX s)). split.
  - rewrite Ey. apply fol_add; [apply fol_mul; [exact Ha|exact F1]|exact Hc].
  - intros s Hs. rewrite elt_emapt. eapply eq_trans; [exact (f_equal (option_map _) (V1 s Hs))|]. reflexivity.
Qed.
(*@ex C100_ex_adamw *)
Lemma ex_adamw_meta : forall `{P : Platform} (n : nat), exists TD TX x sd X SS,
  @adamw (DualOps P) (@LConst (DualOps P) (fd (/ 10) 1)) (fd (9 / 10) 0) (fd (99 / 100) 1) (fd (/ 100) 0) (fd (/ 1000) 0) (fd (/ 5) 3) = Ok TD /\
  (forall s, @adamw (XROps P) (@LConst (XROps P) (Fin (/ 10 + 1 * s))) (Fin (9 / 10 + 0 * s)) (Fin (99 / 100 + 1 * s)) (Fin (/ 100 + 0 * s)) (Fin (/ 1000 + 0 * s)) (Fin (/ 5 + 3 * s)) = Ok (TX s)) /\
  @fit (DualOps P) TD (fun _ q => emapt (fun d x => @fadd (DualOps P) d (@fmul (DualOps P) d (fd 2 1) x) (fd 0 1)) q) n (Leaf (mkT F32 [2%nat] [fd 1 0; fd 2 5])) = Ok (x, sd) /\
  (forall s, Rabs s < / 200 -> @fit (XROps P) (TX s) (fun _ q => emapt (fun d x => @fadd (XROps P) d (@fmul (XROps P) d (Fin (2 + 1 * s)) x) (Fin (0 + 1 * s))) q) n (Leaf (mkT F32 [2%nat] [Fin (1 + 0 * s); Fin (2 + 5 * s)])) = Ok (X s, SS s)) /\
  forall pos y, elt x pos = Some y -> exists f t, y = fd (f 0) t /\ derivable_pt_lim f 0 t /\ forall s, Rabs s < / 200 -> elt (X s) pos = Some (Fin (f s)).
Proof.
  intros P n. assert (FL : forall a t, follows_on (/ 200) (fd a t) (fun s => Fin (a + t * s))) by (intros a t; exists (fun s => a + t * s); split; [apply carries_line|reflexivity]).
  assert (HL : @rates P (/ 200) (@LConst (DualOps P) (fd (/ 10) 1)) (fun s => @LConst (XROps P) (Fin (/ 10 + 1 * s)))) by (intros c; apply (FL (/ 10) 1)).
  assert (U1 : unit_on (/ 200) (fun s => Fin (9 / 10 + 0 * s))) by (intros s Hs; unfold near0 in Hs; apply Rabs_def2 in Hs; eexists; split; [reflexivity|lra]).
  assert (U2 : unit_on (/ 200) (fun s => Fin (99 / 100 + 1 * s))) by (intros s Hs; unfold near0 in Hs; apply Rabs_def2 in Hs; eexists; split; [reflexivity|lra]).
  assert (N1 : nonneg_on (/ 200) (fun s => Fin (/ 100 + 0 * s))) by (intros s Hs; eexists; split; [reflexivity|lra]).
  assert (N2 : pos_on (/ 200) (fun s => Fin (/ 1000 + 0 * s))) by (intros s Hs; eexists; split; [reflexivity|lra]).
  assert (HO := so_adamw (/ 200) _ _ _ _ _ _ _ _ _ _ _ _ HL (FL (9 / 10) 0) U1 (FL (99 / 100) 1) U2 (FL (/ 100) 0) N1 (FL (/ 1000) 0) N2 (FL (/ 5) 3)).
  assert (HD : derives (/ 200) (Leaf (mkT F32 [2%nat] [fd 1 0; fd 2 5])) (fun s => Leaf (mkT F32 [2%nat] [Fin (1 + 0 * s); Fin (2 + 5 * s)]))).
  { split; [repeat constructor|]. split; [intros s _; split; [reflexivity|repeat constructor]|]. intros [i j] y Hy. destruct i as [|i]; [|destruct i; discriminate]. destruct j as [|[|j]].
    - injection Hy as <-. exists (fun s => 1 + 0 * s). split; [apply carries_line|reflexivity].
    - injection Hy as <-. exists (fun s => 2 + 5 * s). split; [apply carries_line|reflexivity].
    - destruct j; discriminate. }
  destruct (optimisers_differentiate (/ 200) _ _ _ _ _ _ n ltac:(lra) HO HD (affine_grads (/ 200) _ _ _ _ _ (FL 2 1) (FL 0 1))) as (TD & TX & x & sd & X & SS & H1 & H2 & H3 & H4 & _ & H5).
  exists TD, TX, x, sd, X, SS. auto.
Qed.


(** The derivative of the trained parameter with respect to the learning rate, in closed form: sgd on x^2 / 2. *)
(*@ex C100_ex_learning_rate *)
Lemma ex_lr_meta : forall `{P : Platform} (lr p : R) (n : nat), exists T s,
  @sgd (DualOps P) (@LConst (DualOps P) (fd lr 1)) None false = Ok T /\
  @fit (DualOps P) T (fun _ q => q) n (Leaf (mkT F32 [1%nat] [fd p 0])) = Ok (Leaf (mkT F32 [1%nat] [fd ((1 - lr) ^ n * p) (- INR n * (1 - lr) ^ (n - 1) * p)]), s).
Proof.
  intros P lr p n. eexists. 
  enough (exists s, @fit (DualOps P) (chain_gt [@identity (DualOps P); @scale (DualOps P) (@fneg (DualOps P) (fd lr 1))]) (fun _ q => q) n (Leaf (mkT F32 [1%nat] [fd p 0])) = Ok (Leaf (mkT F32 [1%nat] [fd ((1 - lr) ^ n * p) (- INR n * (1 - lr) ^ (n - 1) * p)]), s) /\ s = SNode NList [EmptyState; EmptyState]) as (s & Hs & _) by (exists s; split; [reflexivity|exact Hs]).
  exists (SNode NList [EmptyState; EmptyState]). split; [|reflexivity]. induction n as [|n IH].
  - assert (E : fd p 0 = fd ((1 - lr) ^ 0 * p) (- INR 0 * (1 - lr) ^ (0 - 1) * p)) by (unfold fd; f_equal; f_equal; cbn; ring). exact (f_equal (fun z => Ok (Leaf (mkT F32 [1%nat] [z]), @SNode (DualOps P) NList [@EmptyState (DualOps P); @EmptyState (DualOps P)])) E).
  - eapply (@fit_next (DualOps P)); [exact IH| |].
    + cbn. reflexivity.
    + cbn -[pow INR]. match goal with |- Ok (Leaf (astype F32 (mkT _ _ [?a]))) = Ok (Leaf (mkT _ _ [?b])) => assert (E : a = b); [|exact (f_equal (fun z => Ok (Leaf (mkT F32 [1%nat] [z]))) E)] end.
      unfold fd. cbn -[pow INR]. f_equal; f_equal; [cbn [pow]; ring|]. rewrite S_INR. destruct n as [|n]; [cbn; ring|]. replace (S n - 0)%nat with (S n) by lia. replace (S n - 1)%nat with n by lia. rewrite ?Nat.sub_0_r. cbn [pow]. ring.
Qed.
(*@ex C100_ex_eps_root *)
Lemma ex_adam_nan : forall `{P : Platform}, exists outs, @trains (DualOps P) (@scale_by_adam (DualOps P) (fd (9 / 10) 0) (fd (99 / 100) 0) (fd (/ 100) 0) (fd 0 0)) (Leaf (mkT F32 [2%nat] [fd 1 0; fd 2 0])) [(Leaf (mkT F32 [2%nat] [fd 3 1; fd 0 7]), None); (Leaf (mkT F32 [2%nat] [fd 3 1; fd 0 8]), None)] outs /\
  @oelt (DualOps P) outs 1 (0%nat, 1%nat) = Some (Fin 0, NaN).
Proof.
  intros P. destruct (adam_meta_nan (9 / 10) 0 (99 / 100) 0 (/ 100) 0 (Leaf (mkT F32 [2%nat] [fd 1 0; fd 2 0])) [(Leaf (mkT F32 [2%nat] [fd 3 1; fd 0 7]), None); (Leaf (mkT F32 [2%nat] [fd 3 1; fd 0 8]), None)]) as (outs & Ht & _ & He); [lra|lra|lra|repeat constructor|repeat constructor; discriminate|].
  exists outs. split; [exact Ht|]. apply (He 1%nat (0%nat, 1%nat) (fun i => match i with 0%nat => 7 | _ => 8 end)); [cbn; lia|]. intros [|[|i]] Hi; [reflexivity|reflexivity|lia].
Qed.
