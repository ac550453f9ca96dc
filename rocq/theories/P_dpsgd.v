(** Training with dpsgd is differentially private (C81). *)
From Coquelicot Require Import Coquelicot.
From Verif Require Export P_dp P_alias2 P_regret P_equiv.
From Coq Require Import List Psatz Reals Lia.
Import ListNotations.
Open Scope list_scope.
Open Scope nat_scope.
(*@header
From Coquelicot Require Import Coquelicot.
From Coq Require Import List Reals.
Import ListNotations.
Open Scope list_scope.
Open Scope nat_scope.
*)

(** ** Specification *)
(** The training loop: [qs] are the parameters after each of T steps of dpsgd updates and apply_updates from [p0]; the per-example gradients of a step
    are any function of the parameters (flattened values) published so far. *)
Definition dpsgd_trained `{P : Platform} (L : @lrate (XROps P)) (C m : R) (seed : Z) (mom : option R) (nest : bool) (p0 : tree (gt XR)) (G : list (list R) -> tree (gt XR)) (T : nat) (qs : list (tree (gt XR))) : Prop :=
  exists tx s0 sf, @dpsgd (XROps P) L (Fin C) (Fin m) seed (option_map Fin mom) nest = Ok tx /\ @init (XROps P) tx p0 = Ok s0 /\
    @train_loop (XROps P) tx s0 p0 (map (fun t => G (map rvals (firstn t qs))) (seq 0 T)) = Ok (qs, sf).
(** Batches of B per-example gradients for the parameters [p0]. *)
Definition batches (p0 : tree (gt XR)) (B : nat) : tree (fdt * list nat) := tmap (fun l => (dt l, B :: shp l)) p0.
(** Parameters of one dtype, with at least one leaf. *)
Definition one_dtype (p0 : tree (gt XR)) : Prop := leaves p0 <> [] /\ exists d, Forall (fun l => dt l = d) (leaves p0).

(** ** The parameters as a function of the released aggregates *)
Definition traj (x0 : list R) (lr : nat -> R) (mom : option R) (nest : bool) (ys : list (list R)) : list (list R) :=
  map (fun t => map (fun i => (nth i x0 0 - sum_f_R0 (fun k => lr k * momentum_of mom nest (fun j => nth i (nth j ys []) 0) k) t)%R) (seq 0 (length x0))) (seq 0 (length ys)).
Lemma momentum_ext mom nest f g n : (forall i, i <= n -> f i = g i) -> momentum_of mom nest f n = momentum_of mom nest g n.
Proof.
  intros H. unfold momentum_of. destruct mom as [b|]; [|apply H; lia]. cbv zeta. assert (E : sum_f_R0 (fun i => (b ^ (n - i) * f i)%R) n = sum_f_R0 (fun i => (b ^ (n - i) * g i)%R) n) by (apply sum_eq; intros i Hi; now rewrite H). rewrite E, (H n) by lia. reflexivity.
Qed.
Lemma firstn_seq n m : firstn n (seq 0 m) = seq 0 (Nat.min n m).
Proof.
  assert (G : forall n m s, firstn n (seq s m) = seq s (Nat.min n m)); [|apply G]. clear. induction n as [|n IH]; intros [|m] s; cbn; try reflexivity. now rewrite IH.
Qed.
Lemma nth_firstn {A} (l : list A) d i n : i < n -> nth i (firstn n l) d = nth i l d.
Proof. revert l n. induction i as [|i IH]; intros [|a l] [|n] H; cbn; try reflexivity; try lia. apply IH. lia. Qed.
Lemma traj_firstn x0 lr mom nest t ys : traj x0 lr mom nest (firstn t ys) = firstn t (traj x0 lr mom nest ys).
Proof.
  unfold traj. rewrite firstn_map, firstn_seq, firstn_length. apply map_ext_in. intros n Hn. apply in_seq in Hn. apply map_ext. intros i. f_equal. apply sum_eq. intros k Hk. f_equal. apply momentum_ext. intros j Hj. rewrite nth_firstn by lia. reflexivity.
Qed.

Section Loop.
  Context `{O : Ops}.
  Lemma loop_dp C m seed Ts : forall gs s ss q agg s1 qs sf, length ss = length Ts ->
    run (differentially_private_aggregate C m seed) s (map (fun g => (g, None)) gs) = Ok (agg, s1) -> train_loop (chain_gt Ts) (SNode NList ss) q agg = Ok (qs, sf) ->
    exists sf', train_loop (chain_gt (differentially_private_aggregate C m seed :: Ts)) (SNode NList (s :: ss)) q gs = Ok (qs, sf').
  Proof.
    induction gs as [|g gs IH]; intros s ss q agg s1 qs sf Hl Er Et.
    - cbn in Er. injection Er as <- <-. cbn in Et. injection Et as <- <-. eexists. reflexivity.
    - cbn [map run] in Er. destruct (update (differentially_private_aggregate C m seed) g s None) as [[o s']|] eqn:Eu; [|discriminate]. cbn [rbind] in Er.
      destruct (run (differentially_private_aggregate C m seed) s' (map (fun g => (g, None)) gs)) as [[agg' s1']|] eqn:Er'; [|discriminate]. cbn [rbind] in Er. injection Er as <- <-.
      cbn [train_loop update chain_gt] in Et. rewrite Hl, Nat.eqb_refl in Et. destruct (chain_update Ts ss o (Some q)) as [[u2 ss2]|] eqn:Ec; [|discriminate]. cbn [rbind] in Et.
      destruct (apply_updates q u2) as [q'|] eqn:Eq; [|discriminate]. cbn [rbind] in Et. fold (chain_gt Ts) in Et.
      destruct (train_loop (chain_gt Ts) (SNode NList ss2) q' agg') as [[qs' sf']|] eqn:El; [|discriminate]. cbn [rbind] in Et. injection Et as <- <-.
      destruct (IH s' ss2 q' agg' s1' qs' sf') as (sf2 & E2); auto. { eapply chain_update_length; [exact Hl|exact Ec]. }
      exists sf2. cbn [train_loop update chain_gt length]. rewrite Hl, Nat.eqb_refl. cbn [chain_update].
      change (update (differentially_private_aggregate C m seed) g s (Some q)) with (update (differentially_private_aggregate C m seed) g s None). rewrite Eu. cbn [rbind]. rewrite Ec. cbn [rbind]. rewrite Eq. cbn [rbind].
      fold (chain_gt (differentially_private_aggregate C m seed :: Ts)). rewrite E2. reflexivity.
  Qed.
End Loop.

Section Run.
  Context {P : Platform}.
  Notation xr := (XROps P).
  Variables (L : @lrate xr) (lr : Z -> R) (C m : R) (seed : Z) (mom : option R) (nest : bool) (B T : nat) (p0 : tree (gt XR)) (w : list (list R)) (G : list (list R) -> tree (gt XR)).
  Hypotheses (HL : forall c, rate L c = Fin (lr c)) (HC : (0 < C)%R) (HB : 1 <= B) (Wp : trwf p0) (Fp : finite_tree p0) (Hp : one_dtype p0).
  Notation A := (batches p0 B).
  Hypotheses (HG : submits A B G) (HO : hands_out P seed (example_shapes A) T w) (Hw : noise_shape (total_size (example_shapes A)) T w).
  Definition viewed (h : list (list R)) : tree (gt XR) := G (traj (rvals p0) (fun k => lr (count_at k)) mom nest h).
  Lemma viewed_submits : submits A B viewed.
  Proof. intros h. apply HG. Qed.
  Lemma trained_exists ys : releases (P := P) C m seed p0 viewed T ys -> exists qs, dpsgd_trained (P := P) L C m seed mom nest p0 G T qs /\ map rvals qs = traj (rvals p0) (fun k => lr (count_at k)) mom nest ys /\ Forall (point_of p0) qs.
  Proof.
    intros Hr. pose proof (proj1 Hw) as HT. pose proof (proj1 (releases_iff C m seed B T A w viewed HC HB viewed_submits HO Hw p0 ys) Hr) as Ey. clear Hr.
    destruct (run_exists C m seed B T A w viewed HC HB viewed_submits HO Hw w [] [] eq_refl eq_refl) as (outs & s1 & Er & Eo & Ff). cbn [length] in Er. rewrite HT in Er. cbn [app] in Er. rewrite <- Ey in Er, Eo.
    set (gs := map (fun t => viewed (firstn t ys)) (seq 0 T)). assert (Eg : map (fun t => (viewed (firstn t ys), @None (tree (gt XR)))) (seq 0 T) = map (fun g => (g, None)) gs) by (unfold gs; now rewrite map_map).
    assert (Hpe : Forall (fun h => @per_example xr p0 (fst h)) (map (fun g => (g, @None (tree (gt XR)))) gs)).
    { unfold gs. rewrite map_map. apply Forall_map, Forall_forall. intros t _. cbn [fst]. destruct (viewed_submits (firstn t ys)) as ((Hb1 & Hb2) & _ & Ha). split; [apply Hp|]. split; [apply Hp|]. split; [|exists B; exact Ha].
      revert Hb2. apply Forall_impl. intros l (Hl & _). exact Hl. }
    destruct (@dp_like xr (Fin C) (Fin m) seed p0 (map (fun g => (g, None)) gs) (proj1 HO) Hpe) as (mid & Htr & _ & Hlk).
    assert (Em : mid = outs). { eapply (@trains_fun xr); [exact Htr|]. eexists _, s1. split; [reflexivity|]. exact (eq_ind _ (fun h => @run xr _ _ h = _) Er _ Eg). } subst mid. clear Htr.
    assert (Hpt : Forall (point_of p0) outs). { apply Forall_forall. intros o Hin. rewrite Forall_forall in Hlk, Ff. split; [now apply Hlk|now apply Ff]. }
    destruct (@sgd_emits P L lr mom nest HL) as (tx & Etx & HE). destruct (loop_vec tx _ HE p0 outs Wp Fp Hpt) as (s0 & qs & sf & Ei & El & Hlen & Hq & Hs). injection Etx as <-. 
    cbn [init chain_gt] in Ei. match type of Ei with rmap _ ?c = _ => destruct c as [ss|] eqn:Ec end; [|discriminate]. cbn [rmap] in Ei. injection Ei as <-.
    pose proof (@chain_init_length xr _ _ _ Ec) as El'.
    pose proof (eq_ind _ (fun h => @run xr _ _ h = _) Er _ Eg) as Er2. clear Er. rename Er2 into Er. destruct (@loop_dp xr (Fin C) (Fin m) seed _ gs _ ss p0 outs s1 qs sf El' Er El) as (sf' & Ef).
    assert (Hqv : map rvals qs = traj (rvals p0) (fun k => lr (count_at k)) mom nest ys).
    { assert (Hly : length ys = length outs) by (rewrite <- Eo; apply map_length). unfold traj. apply nth_error_ext. intros t. rewrite !nth_error_map. destruct (Nat.lt_ge_cases t (length outs)) as [Ht|Ht].
      - rewrite (nth_error_nth' (seq 0 (length ys)) 0) by (rewrite seq_length; lia). rewrite seq_nth by lia. cbn [option_map Nat.add]. nx. rewrite (nth_error_nth' qs p0) by lia. cbn [option_map]. f_equal.
        assert (Hx : forall t, t < length outs -> length (rvals (nth t qs p0)) = length (rvals p0)). { intros k Hk. apply rvals_length; [exact Wp|]. rewrite Forall_forall in Hq. apply Hq. nx. apply nth_In. lia. }
        rewrite (map_seq_nth (rvals (nth t qs p0))), Hx by lia. apply map_ext_in. intros i Hi. apply in_seq in Hi.
        assert (Hyo : forall j, j < length outs -> nth j ys [] = rvals (nth j outs p0)). { intros j Hj. rewrite <- Eo. rewrite (nth_indep _ [] (rvals p0)) by (rewrite map_length; lia). apply map_nth. }
        assert (Hmo : forall k, k < length outs -> momentum_of mom nest (fun j => nth i (nth j ys []) 0%R) k = momentum_of mom nest (fun j => nth i (pt p0 outs j) 0%R) k). { intros k Hk. apply momentum_ext. intros j Hj. rewrite Hyo by lia. reflexivity. }
        revert Ht. induction t as [|t IH]; intros Ht.
        + cbn [sum_f_R0]. rewrite Hmo by lia. pose proof (Hs i 0 ltac:(nx; lia) ltac:(nx; lia)) as H0. unfold pt in H0 |- *. cbn [nth] in H0. rewrite H0. ring.
        + specialize (IH ltac:(lia)). cbn [sum_f_R0]. rewrite Hmo by lia. pose proof (Hs i (S t) ltac:(nx; lia) ltac:(nx; lia)) as H0. unfold pt in H0 |- *. cbn [nth] in H0. rewrite H0.
          match type of IH with ?u = ?v => change (@eq R u v) in IH end. rewrite IH. ring.
      - assert (E1 : nth_error qs t = None) by (apply nth_error_None; nx; lia). assert (E2 : nth_error (seq 0 (length ys)) t = None) by (apply nth_error_None; rewrite seq_length; lia). nx. rewrite E1, E2. reflexivity. }
    exists qs. split; [|split; [exact Hqv|exact Hq]]. eexists _, _, sf'. split; [reflexivity|]. split.
    - cbn [init chain_gt chain_init]. cbn [init differentially_private_aggregate rbind]. cbn [chain_init] in Ec. etransitivity; [exact (f_equal (fun x => rmap (SNode NList) (rbind x (fun q => Ok (_ :: q)))) Ec)|]. reflexivity.
    - assert (Eq : gs = map (fun t => G (map rvals (firstn t qs))) (seq 0 T)). { unfold gs, viewed. apply map_ext. intros t. rewrite traj_firstn, <- Hqv, firstn_map. reflexivity. }
      exact (eq_ind _ (fun x => @train_loop xr _ _ _ x = _) Ef _ Eq).
  Qed.
End Run.

Lemma loop_unique `{O : Ops} (tx : GT) (F : list (tree tensor) -> tree tensor) : forall n h s q qs qs' sf sf',
  train_loop tx s q (map (fun t => F (h ++ firstn t qs)) (seq 0 n)) = Ok (qs, sf) -> train_loop tx s q (map (fun t => F (h ++ firstn t qs')) (seq 0 n)) = Ok (qs', sf') -> qs = qs'.
Proof.
  induction n as [|n IH]; intros h s q qs qs' sf sf' E E'; [cbn in E, E'; congruence|]. cbn [seq map train_loop firstn] in E, E'. rewrite app_nil_r in E, E'.
  destruct (update tx (F h) s (Some q)) as [[u s']|]; [|discriminate]. cbn [rbind] in E, E'. destruct (apply_updates q u) as [q'|]; [|discriminate]. cbn [rbind] in E, E'.
  destruct (train_loop tx s' q' (map (fun t => F (h ++ firstn t qs)) (seq 1 n))) as [[r sr]|] eqn:E1; [|discriminate]. cbn [rbind] in E. injection E as <- <-.
  destruct (train_loop tx s' q' (map (fun t => F (h ++ firstn t qs')) (seq 1 n))) as [[r' sr']|] eqn:E1'; [|discriminate]. cbn [rbind] in E'. injection E' as <- <-.
  rewrite <- seq_shift, map_map in E1, E1'. f_equal. apply (IH (h ++ [q']) s' q' r r' sr sr').
  - rewrite <- E1. f_equal. apply map_ext. intros t. now rewrite <- app_assoc.
  - rewrite <- E1'. f_equal. apply map_ext. intros t. now rewrite <- app_assoc.
Qed.
Lemma trained_unique `{P : Platform} L C m seed mom nest p0 G T qs qs' : dpsgd_trained L C m seed mom nest p0 G T qs -> dpsgd_trained L C m seed mom nest p0 G T qs' -> qs = qs'.
Proof.
  intros (tx & s0 & sf & E1 & E2 & E3) (tx' & s0' & sf' & E1' & E2' & E3'). rewrite E1 in E1'. injection E1' as <-. rewrite E2 in E2'. injection E2' as <-.
  exact (@loop_unique (XROps P) tx (fun l => G (map rvals l)) T [] s0 p0 qs qs' sf sf' E3 E3').
Qed.

(*@ C81_dpsgd_session : Whatever per-example gradients (finite, of the declared shapes) the steps compute from the parameters published so far, and whatever noise the generator hands out, T steps of dpsgd updates and apply_updates succeed and there is exactly one sequence of T published parameters, all finite and of the signature of the initial ones. *)
Lemma dpsgd_session : forall (P : Platform) (L : @lrate (XROps P)) (lr : Z -> R) (C m : R) (seed : Z) (mom : option R) (nest : bool) (B T : nat) (p0 : tree (gt XR)) (w : list (list R)) (G : list (list R) -> tree (gt XR)),
  (forall c, rate L c = Fin (lr c)) -> (0 < C)%R -> 1 <= B -> trwf p0 -> finite_tree p0 -> one_dtype p0 -> submits (batches p0 B) B G ->
  noise_shape (total_size (example_shapes (batches p0 B))) T w -> hands_out P seed (example_shapes (batches p0 B)) T w ->
  exists qs, dpsgd_trained (P := P) L C m seed mom nest p0 G T qs /\ length qs = T /\ Forall (@P_regret.point_of P p0) qs /\ forall qs', dpsgd_trained (P := P) L C m seed mom nest p0 G T qs' -> qs' = qs.
Proof.
  intros P L lr C m seed mom nest B T p0 w G HL HC HB Wp Fp Hp HG Hw HO.
  destruct (dp_session P C m seed B T _ w (viewed lr mom nest p0 G) p0 HC HB (viewed_submits lr mom nest B p0 G HG) Hw HO) as (ys & Hy & Hly & _).
  destruct (trained_exists L lr C m seed mom nest B T p0 w G HL HC HB Wp Fp Hp HG HO Hw ys Hy) as (qs & Hq & Hv & Hpt). exists qs. split; [exact Hq|]. split; [|split; [exact Hpt|intros qs' H'; exact (trained_unique _ _ _ _ _ _ _ _ _ _ _ H' Hq)]].
  pose proof (f_equal (@length _) Hv) as El. rewrite map_length in El. nx. rewrite El. unfold traj. rewrite map_length, seq_length. exact Hly.
Qed.

(*@ C81_dpsgd : Training with dpsgd is differentially private.  dpsgd of any learning rate or schedule, with or without momentum or Nesterov, standard normal noise; the per-example gradients of each step are any function of the parameters published so far.  Two runs whose batches differ, at each step, in at most one example: for every test (with values in [0,1]) of the whole sequence of published parameters, its expectation under the one run is at most e^eps times that under the other plus delta, with the delta of C81_privacy; if the example is all zero in one of the runs, with the delta of C81_removal. *)
Lemma dpsgd_privacy : forall (lr : Z -> R) (C m : R) (seed : Z) (mom : option R) (nest : bool) (B T : nat) (p0 : tree (gt XR)) (world : list (list R) -> Platform) (L : forall w, @lrate (XROps (world w))) (G G' : list (list R) -> tree (gt XR)) (phi X X' : list (list R) -> R) (a b eps : R),
  let shapes := example_shapes (batches p0 B) in let n := total_size shapes in
  (forall w c, rate (L w) c = Fin (lr c)) -> (0 < C)%R -> (0 < m)%R -> 1 <= B -> 1 <= T -> trwf p0 -> finite_tree p0 -> one_dtype p0 -> submits (batches p0 B) B G -> submits (batches p0 B) B G' ->
  (forall w, noise_shape n T w -> hands_out (world w) seed shapes T w) ->
  (forall xs, 0 <= phi xs <= 1)%R ->
  (forall w qs, noise_shape n T w -> dpsgd_trained (P := world w) (L w) C m seed mom nest p0 G T qs -> X w = phi (map rvals qs)) ->
  (forall w qs, noise_shape n T w -> dpsgd_trained (P := world w) (L w) C m seed mom nest p0 G' T qs -> X' w = phi (map rvals qs)) ->
  E_blocks n T X a -> E_blocks n T X' b ->
  ((forall h, differ_in_one B (G h) (G' h)) ->
   (forall al, 1 < al -> a <= exp eps * b + exp ((al - 1) * (2 * al * INR T / (m * m) - eps)))%R /\
   (2 * INR T / (m * m) < eps -> a <= exp eps * b + exp (- ((eps - 2 * INR T / (m * m)) * (eps - 2 * INR T / (m * m)) * (m * m) / (8 * INR T))))%R) /\
  ((forall h, differ_in_one_zero B (G h) (G' h)) ->
   (forall al, 1 < al -> a <= exp eps * b + exp ((al - 1) * (al * INR T / (2 * (m * m)) - eps)))%R /\
   (INR T / (2 * (m * m)) < eps -> a <= exp eps * b + exp (- ((eps - INR T / (2 * (m * m))) * (eps - INR T / (2 * (m * m))) * (m * m) / (2 * INR T))))%R).
Proof.
  intros lr C m seed mom nest B T p0 world L G G' phi X X' a b eps shapes n HL HC Hm HB HT Wp Fp Hp HG HG' Hw Hphi HX HX' Ea Eb.
  set (tr := traj (rvals p0) (fun k => lr (count_at k)) mom nest).
  assert (HXG : forall K Y, submits (batches p0 B) B K -> (forall w qs, noise_shape n T w -> dpsgd_trained (P := world w) (L w) C m seed mom nest p0 K T qs -> Y w = phi (map rvals qs)) ->
     forall w ys, noise_shape n T w -> releases (P := world w) C m seed p0 (viewed lr mom nest p0 K) T ys -> Y w = phi (tr ys)).
  { intros K Y HK HY w ys Hn Hr. destruct (trained_exists (L w) lr C m seed mom nest B T p0 w K (HL w) HC HB Wp Fp Hp HK (Hw w Hn) Hn ys Hr) as (qs & Hq & Hv & _). rewrite (HY w qs Hn Hq), Hv. reflexivity. }
  split; intros Hd.
  - apply (dp_privacy C m seed B T (batches p0 B) world (viewed lr mom nest p0 G) (viewed lr mom nest p0 G') p0 (fun ys => phi (tr ys)) X X'); auto; try (intros h; apply Hd); try (now apply viewed_submits); [exact (HXG G X HG HX)|exact (HXG G' X' HG' HX')].
  - apply (dp_removal C m seed B T (batches p0 B) world (viewed lr mom nest p0 G) (viewed lr mom nest p0 G') p0 (fun ys => phi (tr ys)) X X'); auto; try (intros h; apply Hd); try (now apply viewed_submits); [exact (HXG G X HG HX)|exact (HXG G' X' HG' HX')].
Qed.

(** A concrete case: two steps on one scalar parameter with momentum 1/2; both examples' gradients depend on the published parameter. *)
Definition ds_p : tree (gt XR) := Node KList [Leaf (mkT F32 [1] [Fin 1])].
Definition ds_grads (v : R) (xs : list (list R)) : tree (gt XR) := dp_pair (match xs with [] => 1%R | x :: _ => nth 0 x 0%R end) v.
(*@ex C81_dpsgd_example *)
Lemma dpsgd_privacy_example : exists (X X' : list (list R) -> R) (a b : R), let shapes := example_shapes (batches ds_p 2) in let n := total_size shapes in
  trwf ds_p /\ finite_tree ds_p /\ one_dtype ds_p /\ submits (batches ds_p 2) 2 (ds_grads 2) /\ submits (batches ds_p 2) 2 (ds_grads (-3)) /\ (forall h, differ_in_one 2 (ds_grads 2 h) (ds_grads (-3) h)) /\ (forall h, ds_grads 2 h <> ds_grads (-3) h) /\
  (forall w, noise_shape n 2 w -> hands_out (handing shapes w) 7 shapes 2 w) /\
  (forall w qs, noise_shape n 2 w -> dpsgd_trained (P := handing shapes w) (@LConst (XROps (handing shapes w)) (Fin 1)) 1 1 7 (Some (1 / 2)%R) false ds_p (ds_grads 2) 2 qs -> X w = test_first (map rvals qs)) /\
  (forall w qs, noise_shape n 2 w -> dpsgd_trained (P := handing shapes w) (@LConst (XROps (handing shapes w)) (Fin 1)) 1 1 7 (Some (1 / 2)%R) false ds_p (ds_grads (-3)) 2 qs -> X' w = test_first (map rvals qs)) /\
  E_blocks n 2 X a /\ E_blocks n 2 X' b /\ (a <= exp 6 * b + exp (- (1 / 4)))%R.
Proof.
  set (A := batches ds_p 2). set (shapes := example_shapes A). set (n := total_size shapes).
  assert (Wp : trwf ds_p) by (repeat constructor). assert (Fp : finite_tree ds_p) by (repeat constructor; eexists; reflexivity). assert (Dp : one_dtype ds_p) by (split; [discriminate|exists F32; repeat constructor]).
  assert (Hsub : forall v, submits A 2 (ds_grads v)). { intros v h. split; [split; [discriminate|repeat constructor; eexists; reflexivity]|]. split; [repeat constructor; eexists; reflexivity|reflexivity]. }
  assert (Hex : forall v, exists X a, (forall w qs, noise_shape n 2 w -> dpsgd_trained (P := handing shapes w) (@LConst (XROps (handing shapes w)) (Fin 1)) 1 1 7 (Some (1 / 2)%R) false ds_p (ds_grads v) 2 qs -> X w = test_first (map rvals qs)) /\ E_blocks n 2 X a).
  { intros v. set (V := viewed (fun _ => 1%R) (Some (1 / 2)%R) false ds_p (ds_grads v)). assert (HV : submits A 2 V) by (apply viewed_submits, Hsub).
    set (tot := fun h => dp_total 1 2 (V h)). set (X := fun w => test_first (traj (rvals ds_p) (fun _ => 1%R) (Some (1 / 2)%R) false (rel 1 1 2 tot [] w))). exists X.
    destruct (proj2 (proj2 (proj2 (proj2 (proj2 (expectation_ok n 2))))) X 1%R 1%R) as (a & Ha); [lra| | |].
    - intros w _. unfold X, test_first, Rmin. match goal with |- context [Rle_dec 1 (Rabs ?t)] => pose proof (Rabs_pos t); destruct (Rle_dec 1 (Rabs t)) end; apply Rabs_le; lra.
    - intros w w' (W1 & W2) (W1' & W2'). destruct w as [|[|z [|? ?]] [|[|y [|? ?]] [|? ?]]]; try discriminate; try (apply Forall_inv in W2; discriminate); try (apply Forall_inv_tail, Forall_inv in W2; discriminate).
      destruct w' as [|[|z' [|? ?]] [|[|y' [|? ?]] [|? ?]]]; try discriminate; try (apply Forall_inv in W2'; discriminate); try (apply Forall_inv_tail, Forall_inv in W2'; discriminate).
      unfold X, test_first. cbn [rel]. assert (Ht : length (tot []) = 1) by (apply (total_length 1 2 A); [apply HV|lia|reflexivity]). destruct (tot []) as [|s [|? ?]]; try discriminate. cbn [noisy map2 length traj seq map nth rvals ds_p].
      eapply Rle_trans; [apply test_lip|]. cbn [dist2]. unfold dist1, vsubr. cbn [combine map fst snd]. rewrite !rsum_cons, !rsum_nil.
      match goal with |- (Rabs ?t <= _)%R => replace t with ((z' - z) / 2)%R by (unfold traj; cbn; field) end.
      unfold Rdiv. rewrite Rabs_mult, (Rabs_pos_eq (/ 2)), (Rabs_minus_sym z' z) by lra. pose proof (Rabs_pos (z - z')). pose proof (Rabs_pos (y - y')). lra.
    - exists a. split; [|exact Ha]. intros w qs Hw Hr. unfold X. destruct (generators_exist shapes w) as (_ & HO).
      destruct (trained_exists (P := handing shapes w) (@LConst (XROps (handing shapes w)) (Fin 1)) (fun _ => 1%R) 1 1 7 (Some (1/2)%R) false 2 2 ds_p w (ds_grads v) (fun _ => eq_refl) ltac:(lra) ltac:(lia) Wp Fp Dp (Hsub v) (HO 7%Z 2) Hw (rel 1 1 2 tot [] w)) as (qs' & Hq & Hv & _).
      { apply (releases_iff (P := handing shapes w) 1 1 7 2 2 A w V); auto. lra. }
      rewrite (trained_unique _ _ _ _ _ _ _ _ _ _ _ Hr Hq). f_equal. symmetry. exact Hv. }
  destruct (Hex 2%R) as (X & a & HX & Ha), (Hex (-3)%R) as (X' & b & HX' & Hb).
  assert (Hdif : forall h, differ_in_one 2 (ds_grads 2 h) (ds_grads (-3) h)). { intros h. exists 1. split; [lia|]. intros c Hc Hn. assert (c = 0) by lia. subst c. reflexivity. }
  assert (Hphi : forall ys, (0 <= test_first ys <= 1)%R). { intros ys. unfold test_first, Rmin. pose proof (Rabs_pos (nth 0 (nth 0 ys []) 0%R)). destruct (Rle_dec _ _); lra. }
  exists X, X', a, b. cbv zeta. fold A. fold shapes. fold n. repeat (split; [first [assumption|apply Hsub|exact HX|exact HX'|exact Ha|exact Hb|intros; apply generators_exist|idtac]|]).
  - intros h E. injection E. lra.
  - destruct (dpsgd_privacy (fun _ => 1%R) 1 1 7 (Some (1/2)%R) false 2 2 ds_p (handing shapes) (fun w => @LConst (XROps (handing shapes w)) (Fin 1)) (ds_grads 2) (ds_grads (-3)) test_first X X' a b 6) as (H & _); auto; [lra|lra|intros; apply generators_exist|].
    destruct (H Hdif) as (_ & H').
    replace (- (1 / 4))%R with (- ((6 - 2 * INR 2 / (1 * 1)) * (6 - 2 * INR 2 / (1 * 1)) * (1 * 1) / (8 * INR 2)))%R by (cbn; field). apply H'. cbn. lra.
Qed.
