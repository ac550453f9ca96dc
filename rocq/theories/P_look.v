(** lookahead. *)
From Verif Require Export P_flat.
From Coq Require Import String List Psatz.
Import ListNotations.
Open Scope list_scope.
Open Scope nat_scope.
(*@header
From Coq Require Import String List.
Import ListNotations.
Open Scope list_scope.
Open Scope nat_scope.
*)

(** ** Specifications *)
(** Fast and slow value of one parameter after [n] calls, given the fast optimiser's updates [u]. *)
Fixpoint look_seq (k : nat) (a f0 s0 : R) (u : nat -> R) (n : nat) : R * R :=
  match n with
  | 0 => (f0, s0)
  | S m =>
    let (f, s) := look_seq k a f0 s0 u m in
    if S m mod k =? 0 then (let new := (s + a * (f + u m - s))%R in (new, new)) else ((f + u m)%R, s)
  end.
Section Spec.
  Context `{O : Ops}.
  Notation updates := (tree tensor).
  Notation params := (option (tree tensor)).
  (** The user's loop: update, then apply_updates; returns the parameters after every call. *)
  Fixpoint train_loop (T : GT) (s : state) (q : updates) (gs : list updates) : result (list updates * state) :=
    match gs with
    | [] => Ok ([], s)
    | g :: r =>
      let* (lu, s') := update T g s (Some q) in
      let* q' := apply_updates q lu in
      let* (qs, sf) := train_loop T s' q' r in Ok (q' :: qs, sf)
    end.
  (** [us] are the updates the fast optimiser emits when called once per gradient with the current
      pair of parameters, its state being re-initialised from the fast parameters at every k-th call
      when [reset] is set; [sf] is its final state. *)
  Fixpoint fast_calls (opt : GT) (reset : bool) (k n : nat) (si : state) (q : updates) (gs qs us : list updates) (sf : state) : Prop :=
    match gs, qs, us with
    | [], [], [] => sf = si
    | g :: gs', q' :: qs', u :: us' =>
      exists si', update opt g si (Some q) = Ok (u, si') /\
      if reset && (S n mod k =? 0) then exists f s i, q = LookaheadParams f s /\ init opt f = Ok i /\ fast_calls opt reset k (S n) i q' gs' qs' us' sf
      else fast_calls opt reset k (S n) si' q' gs' qs' us' sf
    | _, _, _ => False
    end.
  (** A fast optimiser that does not raise and keeps shapes and dtypes on gradients satisfying [G];
      [I] holds of its states. *)
  Definition fast_ok (opt : GT) (p0 : updates) (G : updates -> Prop) (I : state -> Prop) : Prop :=
    (forall f, like p0 f -> exists s, init opt f = Ok s /\ I s) /\
    forall s u par, I s -> like p0 u -> G u -> exists u' s', update opt u s par = Ok (u', s') /\ like p0 u' /\ I s'.
End Spec.
(** States without booleans whose floats are all finite and whose integers are in range. *)
Fixpoint plain {P : Platform} (s : @state (XROps P)) : Prop :=
  match s with
  | SInt w z => iwrap w z = z
  | SBool _ | SBTree _ => False
  | SKey _ => True
  | SNum _ x => isfin x
  | STree t => trwf t /\ Forall isfin (flat_map (@dat XR) (leaves t))
  | SNode _ l => (fix go l := match l with [] => True | x :: r => plain x /\ go r end) l
  end.

Section Step.
  Context `{O : Ops}.
  Definition ldiff d (f u s : F) := fsub d (fadd d f u) s.
  Definition lslow a sync d (f u s : F) := fmul d (conv defdt d (weak_bool a sync)) (ldiff d f u s).
  Definition lfast a sync d (f u s : F) := fsub d u (fmul d (conv defdt d (weak_bool (fsub F64 fone a) sync)) (ldiff d f u s)).
  Lemma look_update_ew (W : tree (gt (F * F * F))) a sync :
    let f := emapt (fun _ z => fst (fst z)) W in let u := emapt (fun _ z => snd (fst z)) W in let s := emapt (fun _ z => snd z) W in
    lookahead_update u sync (LookaheadParams f s) a =
      Ok (LookaheadParams (emapt (fun d z => lfast a sync d (fst (fst z)) (snd (fst z)) (snd z)) W) (emapt (fun d z => lslow a sync d (fst (fst z)) (snd (fst z)) (snd z)) W)).
  Proof.
    intros f u s. unfold lookahead_update, LookaheadParams. cbn [getattr field_of String.eqb Ascii.eqb Bool.eqb rbind].
    assert (E1 : tmm3 (fun f u s => let* x := bin fadd f u in bin fsub x s) f u s = Ok (emapt (fun d z => ldiff d (fst (fst z)) (snd (fst z)) (snd z)) W)).
    { apply tmm3_ew. intros z. rewrite bin_emap. cbn [rbind]. rewrite bin_emap. reflexivity. }
    rewrite E1. cbn [rbind].
    assert (E2 : tmm2 (fun up df => bin fsub up (wmul (weak_bool (fsub F64 fone a) sync) df)) u (emapt (fun d z => ldiff d (fst (fst z)) (snd (fst z)) (snd z)) W) = Ok (emapt (fun d z => lfast a sync d (fst (fst z)) (snd (fst z)) (snd z)) W)).
    { apply tmm2_ew. intros z. unfold wmul. rewrite emap_emap, bin_emap. reflexivity. }
    rewrite E2. cbn [rbind]. do 2 f_equal. f_equal. f_equal. apply tmap_emapt. intros z. unfold wmul. rewrite emap_emap. reflexivity.
  Qed.
  Lemma apply_ew (W : tree (gt (F * F))) : apply_updates (emapt (fun _ z => fst z) W) (emapt (fun _ z => snd z) W) = Ok (emapt (fun d z => fadd d (fst z) (snd z)) W).
  Proof.
    unfold apply_updates. apply tmm2_ew. intros z. rewrite bin_emap. cbn [rbind]. f_equal. unfold astype, emap. cbn [dt shp dat]. f_equal. rewrite <- (map_id (map _ (dat z))) at 2. apply map_ext. intros. apply conv_same.
  Qed.
  Lemma apply_look (W : tree (gt (F * F * F))) (ff fs : fdt -> F * F * F -> F) :
    apply_updates (LookaheadParams (emapt (fun _ z => fst (fst z)) W) (emapt (fun _ z => snd z) W)) (LookaheadParams (emapt ff W) (emapt fs W)) =
    Ok (LookaheadParams (emapt (fun d z => fadd d (fst (fst z)) (ff d z)) W) (emapt (fun d z => fadd d (snd z) (fs d z)) W)).
  Proof.
    pose proof (apply_ew (LookaheadParams (emapt (fun d z => (fst (fst z), ff d z)) W) (emapt (fun d z => (snd z, fs d z)) W))) as H.
    unfold emapt, LookaheadParams in *. cbn [tmap map] in H. rewrite !tmap_tmap in H.
    assert (E : forall (B C : Type) (g : fdt -> B -> C) (h : fdt -> F * F * F -> B), tmap (fun x => emap g (emap h x)) W = tmap (emap (fun d z => g d (h d z))) W) by (intros; apply tmap_ext; intros; apply emap_emap).
    rewrite !E in H. exact H.
  Qed.
  Lemma like3 (p0 a b c : tree tensor) : like p0 a -> like p0 b -> like p0 c -> exists W : tree (gt (F * F * F)), avals W = avals p0 /\ trwf W /\
    emapt (fun _ z => fst (fst z)) W = a /\ emapt (fun _ z => snd (fst z)) W = b /\ emapt (fun _ z => snd z) W = c.
  Proof.
    intros (Ha & Wa) (Hb & Wb) (Hc & Wc). destruct (tree_gzip a b) as (W1 & A1 & B1 & C1 & D1); [congruence|assumption|assumption|].
    destruct (tree_gzip W1 c) as (W & A & B & C & D); [congruence|assumption|assumption|]. exists W. split; [congruence|]. split; [assumption|]. rewrite <- C1, <- D1, <- C, !emapt_emapt. auto.
  Qed.
  Lemma elt_map3 (W : tree (gt (F * F * F))) pos (g : fdt -> F * F * F -> F) x y z : elt (emapt (fun _ z => fst (fst z)) W) pos = Some x -> elt (emapt (fun _ z => snd (fst z)) W) pos = Some y -> elt (emapt (fun _ z => snd z) W) pos = Some z ->
    elt (emapt g W) pos = Some (g (leafdt W pos) (x, y, z)).
  Proof. rewrite !elt_emapt. destruct (elt W pos) as [[[? ?] ?]|]; cbn; congruence. Qed.
End Step.

Section Real.
  Context {P : Platform}.
  Notation xr := (XROps P).
  Lemma weak_bool_val a b : @weak_bool xr (Fin a) b = Fin (if b then a else 0).
  Proof. unfold weak_bool. cbn [fmul fcast XROps]. destruct b; [rewrite (@f1 P)|rewrite (@f0 P)]; cbn; f_equal; lra. Qed.
  Lemma conv_x d d' x : @conv xr d d' x = x.
  Proof. unfold conv. destruct (fdt_eqb d d'); reflexivity. Qed.
  Lemma look_elt a sync d f u s : @fadd xr d (Fin f) (@lfast xr (Fin a) sync d (Fin f) (Fin u) (Fin s)) = Fin (if sync then s + a * (f + u - s) else f + u)%R /\
    @fadd xr d (Fin s) (@lslow xr (Fin a) sync d (Fin f) (Fin u) (Fin s)) = Fin (if sync then s + a * (f + u - s) else s)%R.
  Proof.
    unfold lfast, lslow, ldiff. rewrite !conv_x. assert (E : @fsub xr F64 fone (Fin a) = Fin (1 - a)) by (cbn [fsub XROps]; rewrite (@f1 P); reflexivity). rewrite E, !weak_bool_val.
    cbn. split; f_equal; destruct sync; lra.
  Qed.

  Definition lstep (k : nat) (a : R) (n : nat) (fs : R * R) (u : R) : R * R :=
    let (f, s) := fs in if S n mod k =? 0 then (let new := (s + a * (f + u - s))%R in (new, new)) else ((f + u)%R, s).
  Fixpoint look_from k a n (fs : R * R) (u : nat -> R) (m : nat) : R * R := match m with 0 => fs | S m' => lstep k a (n + m') (look_from k a n fs u m') (u m') end.
  Lemma look_from_cons k a n fs u m : look_from k a n fs u (S m) = look_from k a (S n) (lstep k a n fs (u 0)) (fun i => u (S i)) m.
  Proof. induction m as [|m IH]; [cbn; now rewrite Nat.add_0_r|]. cbn [look_from] in *. rewrite IH. f_equal. lia. Qed.
  Lemma look_from_seq k a f s u m : look_from k a 0 (f, s) u m = look_seq k a f s u m.
  Proof. induction m as [|m IH]; [reflexivity|]. cbn [look_from look_seq]. rewrite IH. destruct (look_seq k a f s u m). reflexivity. Qed.
  Lemma mod_S_Z n k : 1 <= k -> (Z.of_nat (n mod k) =? Z.of_nat k - 1)%Z = (S n mod k =? 0).
  Proof.
    intros Hk. pose proof (Nat.mod_upper_bound n k ltac:(lia)). pose proof (Nat.div_mod n k ltac:(lia)) as E. apply eq_true_iff_eq. rewrite Z.eqb_eq, Nat.eqb_eq. split; intros H1.
    - replace (S n) with ((S (n / k)) * k) by (rewrite Nat.mul_succ_l; nia). apply Nat.mod_mul. lia.
    - destruct (Nat.eq_dec (n mod k) (k - 1)) as [|Hne]; [lia|]. exfalso. assert (Em : S n mod k = S (n mod k)); [|lia]. symmetry. apply (Nat.mod_unique (S n) k (n / k)); lia.
  Qed.
  Lemma mod_next n k : 1 <= k -> (Z.of_nat k < 2 ^ 31)%Z -> (iwrap I32 (Z.of_nat (n mod k) + 1) mod Z.of_nat k)%Z = Z.of_nat (S n mod k).
  Proof.
    intros Hk Hk2. pose proof (Nat.mod_upper_bound n k ltac:(lia)). assert (E : iwrap I32 (Z.of_nat (n mod k) + 1) = Z.of_nat (n mod k + 1)).
    { generalize dependent (n mod k). intros r Hr. rewrite P_wrap.iwrap_small; lia. }
    rewrite E, <- Nat2Z.inj_mod. f_equal.
    rewrite Nat.add_mod_idemp_l by lia. f_equal. lia.
  Qed.

  (** ** blend on plain states *)
  Lemma bin_like (c i : gt XR) : aval c = aval i -> twf c -> twf i -> exists W : gt (XR * XR), aval W = aval c /\ emap (fun (_ : fdt) (z : XR * XR) => fst z) W = c /\ emap (fun (_ : fdt) (z : XR * XR) => snd z) W = i.
  Proof. intros E Hc Hi. destruct (gzip c i E Hc Hi) as (q & H1 & _ & H2 & H3). exists q. auto. Qed.
  Lemma fin_scale_add (b : bool) x y : isfin x -> isfin y -> xadd (xmul (Fin (if b then 0 else 1)) x) (xmul (Fin (if b then 1 else 0)) y) = if b then y else x.
  Proof. intros (a & ->) (c & ->). destruct b; cbn; f_equal; lra. Qed.
  Lemma blend_leaf_fin (b : bool) (c i : gt XR) : aval c = aval i -> twf c -> twf i -> Forall isfin (dat c) -> Forall isfin (dat i) -> @blend_leaf xr b c i = Ok (if b then i else c).
  Proof.
    intros E Hc Hi Fc Fi. destruct (bin_like c i E Hc Hi) as (W & HW & <- & <-). unfold blend_leaf. rewrite !emap_emap. rewrite (@bin_emap xr). f_equal.
    cbn [fadd fmul fcast XROps]. assert (Ez : forall b : bool, (if b then @fzero xr else @fone xr) = Fin (if b then 0 else 1)) by (intros []; [apply (@f0 P)|apply (@f1 P)]).
    assert (Eo : forall b : bool, (if b then @fone xr else @fzero xr) = Fin (if b then 1 else 0)) by (intros []; [apply (@f1 P)|apply (@f0 P)]).
    rewrite Ez, Eo. transitivity (emap (fun (_ : fdt) (z : XR * XR) => if b then snd z else fst z) W); [|destruct b; reflexivity].
    apply emap_ext. intros [x y] Hxy. apply fin_scale_add; [rewrite Forall_forall in Fc; apply Fc|rewrite Forall_forall in Fi; apply Fi]; unfold emap; cbn [dat]; apply in_map_iff; exists (x, y); auto.
  Qed.
  Section Ind.
    Variable Q : @state xr -> Prop.
    Hypothesis H1 : forall w z, Q (SInt w z).
    Hypothesis H2 : forall b, Q (SBool b).
    Hypothesis H3 : forall k, Q (SKey k).
    Hypothesis H4 : forall d x, Q (SNum d x).
    Hypothesis H5 : forall t, Q (STree t).
    Hypothesis H6 : forall t, Q (SBTree t).
    Hypothesis H7 : forall n l, Forall Q l -> Q (SNode n l).
    Fixpoint state_ind' (s : @state xr) : Q s :=
      match s with
      | SInt w z => H1 w z | SBool b => H2 b | SKey k => H3 k | SNum d x => H4 d x | STree t => H5 t | SBTree t => H6 t
      | SNode n l => H7 n l ((fix go l : Forall Q l := match l with [] => Forall_nil _ | x :: r => Forall_cons x (state_ind' x) (go r) end) l)
      end.
  End Ind.
  Lemma blend_plain (b : bool) : forall c i : @state xr, plain c -> plain i -> ssig c = ssig i -> blend b c i = Ok (if b then i else c).
  Proof.
    intros c. induction c as [w z|bb|kk|d x|t|t|n l IH] using state_ind'; intros i Hc Hi E; destruct i as [w' z'|bb'|kk'|d' x'|t'|t'|n' l']; cbn in E; try discriminate; try contradiction.
    - injection E as ->. cbn [blend]. assert (Ew : iw_eqb w' w' = true) by now apply iw_eqb_eq. rewrite Ew. cbn in Hc, Hi. destruct b; cbn [b2z]; do 2 f_equal.
      + replace ((1 - 1) * z + 1 * z')%Z with z' by lia. exact Hi.
      + replace ((1 - 0) * z + 0 * z')%Z with z by lia. exact Hc.
    - cbn [blend]. destruct b; reflexivity.
    - injection E as ->. cbn [blend]. rewrite blend_leaf_fin; [destruct b; reflexivity|reflexivity|reflexivity|reflexivity|constructor; [exact Hc|constructor]|constructor; [exact Hi|constructor]].
    - injection E as E. cbn [blend]. destruct Hc as (Wc & Fc), Hi as (Wi & Fi). destruct (tree_pair aval aval t t' E) as (z & <- & <- & Hz).
      rewrite tmm2_same. unfold trwf in Wc, Wi. rewrite leaves_tmap, Forall_map in Wc, Wi. rewrite leaves_tmap, flat_map_concat_map, map_map, <- flat_map_concat_map in Fc, Fi.
      rewrite (tmapM_ext _ (fun e => Ok (if b then snd e else fst e))); [rewrite tmapM_ok; destruct b; reflexivity|]. intros [c i] Hin. rewrite Forall_forall in Hz, Wc, Wi. 
      apply blend_leaf_fin; [apply (Hz _ Hin)|apply (Wc _ Hin)|apply (Wi _ Hin)| |].
      + apply Forall_forall. intros x Hx. rewrite Forall_forall in Fc. apply Fc. apply in_flat_map. eauto.
      + apply Forall_forall. intros x Hx. rewrite Forall_forall in Fi. apply Fi. apply in_flat_map. eauto.
    - injection E as -> E. cbn [blend]. assert (En : sname_eqb n' n' = true) by now apply sname_eqb_eq. rewrite En.
      match goal with |- rmap _ ?X = _ => enough (X = Ok (if b then l' else l)) as -> by (destruct b; reflexivity) end.
      cbn in Hc, Hi. clear En. revert l' Hi E. induction IH as [|x l IH1 IH IHl]; intros [|y l'] Hi E; try discriminate; [destruct b; reflexivity|]. cbn in E. injection E as E1 E2. destruct Hc as (Hx & Hl), Hi as (Hy & Hl').
      rewrite (IH1 y Hx Hy E1). cbn [rbind]. rewrite (IHl Hl l' Hl' E2). cbn [rbind]. destruct b; reflexivity.
  Qed.
End Real.

(*@ C35_period : a synchronisation period below 1 raises ValueError. *)
Lemma look_period : forall `{O : Ops} (opt : GT) (k : Z) (a : F) (reset : bool), (k < 1)%Z -> lookahead opt k a reset = Err EValue.
Proof. intros O opt k a reset H. unfold lookahead. destruct (Z.ltb_spec k 1); [reflexivity|lia]. Qed.

(*@ C35_loop : for every fast optimiser that does not raise and keeps shapes and dtypes (whatever params it is given), every period 1 <= k < 2^31, step size a and starting pair of fast and slow parameters, and every sequence of gradients - with reset_state only for gradients keeping the fast optimiser's states finite and without booleans: the loop of update and apply_updates never raises; the fast optimiser is called once per gradient, its state re-initialised from the current fast parameters at calls k, 2k, ... when reset_state is set and threaded otherwise; every parameter is a (fast, slow) pair shaped like the start; and wherever the start and the fast optimiser's updates are finite, fast and slow follow the recursion of the paper: at calls k, 2k, ... both become slow + a*(fast + u - slow), at all others fast moves by u and slow is unchanged. *)
Lemma train_loop_spec : forall `{P : Platform} (opt : GT) (k : nat) (a : R) (reset : bool) (fast0 slow0 : tree tensor) (G : tree tensor -> Prop) (I : state -> Prop) (gs : list (tree tensor)) (T : GT) (s0 : state),
  1 <= k -> (Z.of_nat k < 2 ^ 31)%Z -> fast_ok opt fast0 G I -> (reset = true -> (forall s, I s -> plain s) /\ forall s s', I s -> I s' -> ssig s = ssig s') ->
  like fast0 fast0 -> like fast0 slow0 -> Forall (fun g => like fast0 g /\ G g) gs ->
  lookahead opt (Z.of_nat k) (Fin a) reset = Ok T -> init T (LookaheadParams fast0 slow0) = Ok s0 ->
  exists qs us si sf, init opt fast0 = Ok si /\ train_loop T s0 (LookaheadParams fast0 slow0) gs = Ok (qs, SNode NLookahead [sf; SInt I32 (Z.of_nat (length gs mod k))]) /\
    fast_calls opt reset k 0 si (LookaheadParams fast0 slow0) gs qs us sf /\ length qs = length gs /\
    (forall n q, nth_error qs n = Some q -> exists f s, q = LookaheadParams f s /\ like fast0 f /\ like fast0 s /\
       forall pos f0 sl0 u, elt fast0 pos = Some (Fin f0) -> elt slow0 pos = Some (Fin sl0) -> (forall i, i <= n -> oelt us i pos = Some (Fin (u i))) ->
         elt f pos = Some (Fin (fst (look_seq k a f0 sl0 u (S n)))) /\ elt s pos = Some (Fin (snd (look_seq k a f0 sl0 u (S n))))).
Proof.
  intros P opt k a reset fast0 slow0 G I gs T s0 Hk Hk2 (Hinit & Hupd) Hres Hlf Hls Hg HT Hi.
  unfold lookahead in HT. destruct (Z.ltb_spec (Z.of_nat k) 1) as [|_]; [lia|]. injection HT as HT.
  assert (Esi : exists si, init opt fast0 = Ok si /\ I si) by (apply Hinit; exact Hlf). destruct Esi as (si & Esi & HIsi).
  assert (Es0 : s0 = SNode NLookahead [si; SInt I32 (Z.of_nat (0 mod k))]).
  { rewrite <- HT in Hi. cbn [init] in Hi. unfold LookaheadParams in Hi. cbn [getattr field_of String.eqb Ascii.eqb Bool.eqb] in Hi. rewrite Esi in Hi. cbn [rbind] in Hi. injection Hi as <-. rewrite Nat.mod_0_l by lia. reflexivity. }
  assert (Main : forall gs n f s si, Forall (fun g => like fast0 g /\ G g) gs -> like fast0 f -> like fast0 s -> I si ->
    exists qs us sf, train_loop T (SNode NLookahead [si; SInt I32 (Z.of_nat (n mod k))]) (LookaheadParams f s) gs = Ok (qs, SNode NLookahead [sf; SInt I32 (Z.of_nat ((n + length gs) mod k))]) /\
      fast_calls opt reset k n si (LookaheadParams f s) gs qs us sf /\ length qs = length gs /\
      (forall m q, nth_error qs m = Some q -> exists f' s', q = LookaheadParams f' s' /\ like fast0 f' /\ like fast0 s' /\
        forall pos f0 sl0 u, elt f pos = Some (Fin f0) -> elt s pos = Some (Fin sl0) -> (forall i, i <= m -> oelt us i pos = Some (Fin (u i))) ->
         elt f' pos = Some (Fin (fst (look_from k a n (f0, sl0) u (S m)))) /\ elt s' pos = Some (Fin (snd (look_from k a n (f0, sl0) u (S m)))))).
  { clear gs Hg Esi si HIsi Es0 Hi s0. induction gs as [|g gs IH]; intros n f s si Hg Hf Hs HI.
    - exists [], [], si. cbn [train_loop length]. rewrite Nat.add_0_r. repeat split; auto. intros [|m] q E; discriminate.
    - pose proof (Forall_inv Hg) as (Hg1 & HGg). pose proof (Forall_inv_tail Hg) as Hg'. destruct (Hupd si g (Some (LookaheadParams f s)) HI Hg1 HGg) as (u & si' & Eu & Hu & HI').
      destruct (like3 fast0 f u s Hf Hu Hs) as (W & HWa & HWw & E1 & E2 & E3).
      set (sync := S n mod k =? 0).
      set (f1 := emapt (fun d z => @fadd (XROps P) d (fst (fst z)) (@lfast (XROps P) (Fin a) sync d (fst (fst z)) (snd (fst z)) (snd z))) W).
      set (s1 := emapt (fun d z => @fadd (XROps P) d (snd z) (@lslow (XROps P) (Fin a) sync d (fst (fst z)) (snd (fst z)) (snd z))) W).
      assert (Hf1 : like fast0 f1) by (split; [unfold f1; rewrite emapt_avals; exact HWa|now apply emapt_wf]).
      assert (Hs1 : like fast0 s1) by (split; [unfold s1; rewrite emapt_avals; exact HWa|now apply emapt_wf]).
      destruct (Hinit f Hf) as (ii & Eii & HIi).
      set (sin := if reset && sync then ii else si').
      assert (HIn : I sin) by (unfold sin; destruct (reset && sync); assumption).
      destruct (IH (S n) f1 s1 sin Hg' Hf1 Hs1 HIn) as (qs & us & sf & El & Hfc & Hlen & Hq).
      exists (LookaheadParams f1 s1 :: qs), (u :: us), sf. cbn [length].
      split; [|split; [|split]].
      + cbn [train_loop].
        assert (Ebl : (if reset then let* f := getattr (LookaheadParams f s) "fast" in let* i := init opt f in blend sync si' i else Ok si') = Ok sin).
        { unfold sin. destruct reset; [|reflexivity]. unfold LookaheadParams. cbn [getattr field_of String.eqb Ascii.eqb Bool.eqb rbind andb]. rewrite Eii. cbn [rbind]. destruct (Hres eq_refl) as (Hpl & Hsg). apply blend_plain; auto. }
        assert (EU : update T g (SNode NLookahead [si; SInt I32 (Z.of_nat (n mod k))]) (Some (LookaheadParams f s)) =
          Ok (LookaheadParams (emapt (fun d z => lfast (Fin a) sync d (fst (fst z)) (snd (fst z)) (snd z)) W) (emapt (fun d z => lslow (Fin a) sync d (fst (fst z)) (snd (fst z)) (snd z)) W), SNode NLookahead [sin; SInt I32 (Z.of_nat (S n mod k))])).
        { rewrite <- HT. cbn [update]. rewrite Eu. cbn [rbind]. rewrite mod_S_Z by exact Hk. fold sync. pose proof (look_update_ew W (Fin a) sync) as HL. cbn zeta in HL. rewrite E1, E2, E3 in HL.
          etransitivity; [apply (f_equal (fun x => rbind x _)); exact HL|]. cbn [rbind]. etransitivity; [apply (f_equal (fun x => rbind x _)); exact Ebl|]. cbn [rbind]. rewrite (mod_next n k Hk Hk2). reflexivity. }
        rewrite EU. cbn [rbind]. pose proof (apply_look W (fun d z => lfast (Fin a) sync d (fst (fst z)) (snd (fst z)) (snd z)) (fun d z => lslow (Fin a) sync d (fst (fst z)) (snd (fst z)) (snd z))) as HA. rewrite E1, E3 in HA.
        rewrite HA. cbn [rbind]. fold f1 s1. rewrite El. cbn [rbind]. replace (n + S (length gs)) with (S n + length gs) by lia. reflexivity.
      + cbn [fast_calls]. exists si'. split; [exact Eu|]. fold sync. unfold sin in Hfc. destruct (reset && sync); [exists f, s, ii; auto|exact Hfc].
      + cbn [List.length]. f_equal. exact Hlen.
      + intros [|m] q E; cbn in E.
        * injection E as <-. exists f1, s1. split; [reflexivity|]. split; [exact Hf1|]. split; [exact Hs1|]. intros pos f0 sl0 uu Ef Es Huu. specialize (Huu 0 ltac:(lia)). unfold oelt in Huu. cbn in Huu.
          rewrite <- E1 in Ef. rewrite <- E2 in Huu. rewrite <- E3 in Es. unfold f1, s1. rewrite (elt_map3 W pos _ _ _ _ Ef Huu Es), (elt_map3 W pos _ _ _ _ Ef Huu Es). cbn [fst snd].
          destruct (look_elt a sync (leafdt W pos) f0 (uu 0) sl0) as (L1 & L2). nx. rewrite L1, L2. cbn [look_from]. rewrite Nat.add_0_r. unfold lstep. fold sync. destruct sync; auto.
        * destruct (Hq m q E) as (f' & s' & -> & Hf' & Hs' & He). exists f', s'. split; [reflexivity|]. split; [exact Hf'|]. split; [exact Hs'|]. intros pos f0 sl0 uu Ef Es Huu.
          pose proof (Huu 0 ltac:(lia)) as Hu0. unfold oelt in Hu0. cbn in Hu0.
          rewrite look_from_cons. rewrite <- E1 in Ef. rewrite <- E2 in Hu0. rewrite <- E3 in Es.
          destruct (look_elt a sync (leafdt W pos) f0 (uu 0) sl0) as (L1 & L2).
          replace (lstep k a n (f0, sl0) (uu 0)) with ((if sync then sl0 + a * (f0 + uu O - sl0) else f0 + uu O)%R, (if sync then sl0 + a * (f0 + uu O - sl0) else sl0)%R) by (unfold lstep; fold sync; destruct sync; reflexivity).
          apply He.
          -- unfold f1. rewrite (elt_map3 W pos _ _ _ _ Ef Hu0 Es). cbn [fst snd]. nx. now rewrite L1.
          -- unfold s1. rewrite (elt_map3 W pos _ _ _ _ Ef Hu0 Es). cbn [fst snd]. nx. now rewrite L2.
          -- intros i Hi. apply (Huu (S i)). lia. }
  destruct (Main gs 0 fast0 slow0 si Hg Hlf Hls HIsi) as (qs & us & sf & El & Hfc & Hlen & Hq). exists qs, us, si, sf. split; [exact Esi|]. rewrite Es0. split; [exact El|]. split; [exact Hfc|]. split; [exact Hlen|].
  intros n q E. destruct (Hq n q E) as (f' & s' & Eq & Hf' & Hs' & He). exists f', s'. split; [exact Eq|]. split; [exact Hf'|]. split; [exact Hs'|]. intros pos f0 sl0 u Ef Es Hu. rewrite <- !look_from_seq. now apply He.
Qed.

(** ** Limits (C36) *)
Lemma Ok_inj {A} (a b : A) : Ok a = Ok b -> a = b.
Proof. now injection 1. Qed.
(** The sub-state reached by following child indices. *)
Fixpoint state_at `{O : Ops} (s : state) (path : list nat) : option state :=
  match path with
  | [] => Some s
  | i :: r => match s with SNode _ l => match nth_error l i with Some x => state_at x r | None => None end | _ => None end
  end.
(** Not rooted at the LookaheadParams named tuple. *)
Definition not_pair {A} (t : tree A) : Prop := forall ts, t <> Node (KNT "LookaheadParams" ["fast"%string; "slow"%string]) ts.

Lemma look_step_inv `{O : Ops} (opt : GT) (k : Z) (a : F) (reset : bool) (T : GT) g si c f s lu s' :
  lookahead opt k a reset = Ok T -> update T g (SNode NLookahead [si; SInt I32 c]) (Some (LookaheadParams f s)) = Ok (lu, s') ->
  exists u si' sn, update opt g si (Some (LookaheadParams f s)) = Ok (u, si') /\ lookahead_update u (c =? k - 1)%Z (LookaheadParams f s) a = Ok lu /\
    s' = SNode NLookahead [sn; SInt I32 (iwrap I32 (c + 1) mod k)] /\ (reset = false -> sn = si') /\ (reset = true -> exists i, init opt f = Ok i /\ blend (c =? k - 1)%Z si' i = Ok sn).
Proof.
  intros HT E. unfold lookahead in HT. destruct (k <? 1)%Z; [discriminate|]. injection HT as <-. cbn [update] in E.
  apply rbind_Ok in E as ((u & si') & Eu & E). apply rbind_Ok in E as (lu' & El & E). apply rbind_Ok in E as (sn & Es & E). injection E as <- <-.
  exists u, si', sn. split; [exact Eu|]. split; [exact El|]. split; [reflexivity|]. destruct reset; split; intros; try discriminate; [|now injection Es].
  cbn [rbind] in Es. unfold LookaheadParams in Es at 1. cbn [getattr field_of String.eqb Ascii.eqb Bool.eqb rbind] in Es. apply rbind_Ok in Es as (i & Ei & Es). eauto.
Qed.
Lemma blend_at `{O : Ops} sync : forall path c i r x, blend sync c i = Ok r -> state_at c path = Some x -> exists y z, state_at i path = Some y /\ state_at r path = Some z /\ blend sync x y = Ok z.
Proof.
  induction path as [|j path IH]; intros c i r x E Hx.
  - cbn in Hx. injection Hx as <-. cbn. eauto.
  - cbn [state_at] in Hx. destruct c as [| | | | | |n l]; try discriminate. destruct (nth_error l j) as [c'|] eqn:Ej; [|discriminate].
    destruct i as [| | | | | |n' l']; try discriminate. cbn [blend] in E. destruct (sname_eqb n n'); [|discriminate].
    match type of E with rmap _ ?X = _ => destruct X as [m|] eqn:Em; [|discriminate] end. injection E as <-. cbn [state_at].
    revert l l' m Ej Em. induction j as [|j IHj]; intros [|c0 l] [|i0 l'] m Ej Em; try discriminate; apply rbind_Ok in Em as (a & Ea & Em); apply rbind_Ok in Em as (q & Eq & Em); injection Em as <-; cbn in Ej |- *.
    + injection Ej as ->. eauto.
    + eauto.
Qed.

(*@ C36_reset : for every fast optimiser, parameters and call: if with reset_state=True the fast optimiser's new state and its initial state on the current fast params have the same structure, only finite floats, no booleans and integers in range, the state stored after a call that synchronises is exactly that initial state, and otherwise the optimiser's new state; with reset_state=False it always is the latter. *)
Lemma look_reset : forall `{P : Platform} (opt : GT) (k : Z) (a : F) (reset : bool) (T : GT) (g f s lu u : tree tensor) (si si' i s' : state) (c : Z),
  lookahead opt k a reset = Ok T -> update T g (SNode NLookahead [si; SInt I32 c]) (Some (LookaheadParams f s)) = Ok (lu, s') ->
  update opt g si (Some (LookaheadParams f s)) = Ok (u, si') -> init opt f = Ok i -> (reset = true -> plain si' /\ plain i /\ ssig si' = ssig i) ->
  s' = SNode NLookahead [(if (reset && (c =? k - 1)%Z)%bool then i else si'); SInt I32 (iwrap I32 (c + 1) mod k)].
Proof.
  intros P opt k a reset T g f s lu u si si' i s' c HT E Eu Ei Hpl. destruct (look_step_inv _ _ _ _ _ _ _ _ _ _ _ _ HT E) as (u0 & si0 & sn & Eu0 & _ & -> & H1 & H2).
  rewrite Eu in Eu0. injection Eu0 as <- <-. destruct reset; cbn [andb].
  - destruct (H2 eq_refl) as (i0 & Ei0 & Eb). rewrite Ei in Ei0. injection Ei0 as <-. destruct (Hpl eq_refl) as (A & B & C). rewrite (blend_plain _ _ _ A B C) in Eb. injection Eb as <-. reflexivity.
  - now rewrite (H1 eq_refl).
Qed.

(*@ C36_nan_survives : a NaN or infinity anywhere in an array of the fast optimiser's state is not reset: after a synchronisation with reset_state=True that entry is NaN. *)
Lemma look_nan_survives : forall `{P : Platform} (opt : GT) (k : Z) (a : F) (T : GT) (g f s lu u t t0 : tree tensor) (si si' i s' : state) (path : list nat) (pos : nat * nat) (x : XR),
  lookahead opt k a true = Ok T -> update T g (SNode NLookahead [si; SInt I32 (k - 1)]) (Some (LookaheadParams f s)) = Ok (lu, s') ->
  update opt g si (Some (LookaheadParams f s)) = Ok (u, si') -> init opt f = Ok i ->
  state_at si' path = Some (STree t) -> state_at i path = Some (STree t0) -> avals t = avals t0 -> trwf t -> trwf t0 ->
  elt t pos = Some x -> ~ isfin x ->
  exists t', state_at s' (0 :: path) = Some (STree t') /\ elt t' pos = Some NaN.
Proof.
  intros P opt k a T g f s lu u t t0 si si' i s' path pos x HT E Eu Ei Et Et0 Ha Hw Hw0 Hx Hnf. destruct (look_step_inv _ _ _ _ _ _ _ _ _ _ _ _ HT E) as (u0 & si0 & sn & Eu0 & _ & -> & _ & H2).
  rewrite Eu in Eu0. injection Eu0 as <- <-. destruct (H2 eq_refl) as (i0 & Ei0 & Eb). rewrite Ei in Ei0. injection Ei0 as <-. rewrite Z.eqb_refl in Eb.
  destruct (blend_at _ _ _ _ _ _ Eb Et) as (y & z & Ey & Ez & Eyz). rewrite Et0 in Ey. injection Ey as <-. cbn [blend] in Eyz.
  destruct (tree_gzip t t0 Ha Hw Hw0) as (W & A & B & <- & <-).
  assert (Eb2 : tmm2 (@blend_leaf (XROps P) true) (emapt (fun _ z => fst z) W) (emapt (fun _ z => snd z) W) =
     Ok (emapt (fun d z => @fadd (XROps P) d (@fmul (XROps P) d (@fcast (XROps P) d (@fzero (XROps P))) (fst z)) (@fmul (XROps P) d (@fcast (XROps P) d (@fone (XROps P))) (snd z))) W)).
  { apply (@tmm2_ew (XROps P)). intros w. unfold blend_leaf. rewrite !emap_emap. apply (@bin_emap (XROps P)). }
  pose proof (eq_trans (eq_sym Eyz) (f_equal (rmap STree) Eb2)) as E4. apply (f_equal (fun r => match r with Ok v => v | Err _ => z end)) in E4. cbn [rmap] in E4. rewrite E4 in Ez. eexists. split; [cbn [state_at nth_error]; exact Ez|].
  rewrite elt_emapt in Hx |- *. destruct (elt W pos) as [[w1 w2]|]; cbn in Hx; [|discriminate]. injection Hx as ->. cbn [option_map fst snd fadd fmul fcast XROps]. f_equal.
  rewrite (@f0 P), (@f1 P). assert (Hn : forall v, xadd NaN v = NaN) by (intros []; reflexivity).
  assert (Hz : xmul (Fin 0) x = NaN).
  { destruct x as [r| | |]; cbn; [exfalso; apply Hnf; exists r; reflexivity| | |reflexivity]; rewrite rsgn_0; reflexivity. }
  nx. rewrite Hz. apply Hn.
Qed.

(*@ C36_bools : with reset_state=True every boolean in the fast optimiser's state comes back as an int32 after every call, synchronising or not, so the state changes type. *)
Lemma look_bools : forall `{O : Ops} (opt : GT) (k : Z) (a : F) (T : GT) (g f s lu u : tree tensor) (si si' s' : state) (path : list nat) (b : bool) (c : Z),
  lookahead opt k a true = Ok T -> update T g (SNode NLookahead [si; SInt I32 c]) (Some (LookaheadParams f s)) = Ok (lu, s') ->
  update opt g si (Some (LookaheadParams f s)) = Ok (u, si') -> state_at si' path = Some (SBool b) ->
  exists z, state_at s' (0 :: path) = Some (SInt I32 z).
Proof.
  intros O opt k a T g f s lu u si si' s' path b c HT E Eu Et. destruct (look_step_inv _ _ _ _ _ _ _ _ _ _ _ _ HT E) as (u0 & si0 & sn & Eu0 & _ & -> & _ & H2).
  rewrite Eu in Eu0. injection Eu0 as <- <-. destruct (H2 eq_refl) as (i0 & Ei0 & Eb). destruct (blend_at _ _ _ _ _ _ Eb Et) as (y & z & Ey & Ez & Eyz). destruct y; try discriminate. cbn [blend] in Eyz. injection Eyz as <-.
  eexists. cbn [state_at nth_error]. exact Ez.
Qed.

(*@ C36_nonfinite_update : a NaN or infinity in the fast optimiser's update makes the slow parameter NaN at once, also at calls that do not synchronise. *)
Lemma look_nonfinite : forall `{P : Platform} (opt : GT) (k : Z) (a : R) (reset : bool) (T : GT) (g f s lu u q' : tree tensor) (si si' s' : state) (c : Z) (pos : nat * nat) (x : XR) (vf vs : R),
  lookahead opt k (Fin a) reset = Ok T -> update T g (SNode NLookahead [si; SInt I32 c]) (Some (LookaheadParams f s)) = Ok (lu, s') ->
  update opt g si (Some (LookaheadParams f s)) = Ok (u, si') -> like f f -> like f u -> like f s -> apply_updates (LookaheadParams f s) lu = Ok q' ->
  elt f pos = Some (Fin vf) -> elt s pos = Some (Fin vs) -> elt u pos = Some x -> ~ isfin x -> (c <> k - 1)%Z ->
  exists f' slow', q' = LookaheadParams f' slow' /\ elt slow' pos = Some NaN.
Proof.
  intros P opt k a reset T g f s lu u q' si si' s' c pos x vf vs HT E Eu Hf Hu Hs Ea Ef Es Ex Hnf Hc. destruct (look_step_inv _ _ _ _ _ _ _ _ _ _ _ _ HT E) as (u0 & si0 & sn & Eu0 & El & _).
  rewrite Eu in Eu0. injection Eu0 as <- <-. destruct (like3 f f u s Hf Hu Hs) as (W & HWa & HWw & E1 & E2 & E3).
  pose proof (look_update_ew W (Fin a) (c =? k - 1)%Z) as HL. cbn zeta in HL. rewrite E1, E2, E3 in HL. pose proof (Ok_inj _ _ (eq_trans (eq_sym El) HL)) as E4. subst lu.
  pose proof (apply_look W (fun d z => lfast (Fin a) (c =? k - 1)%Z d (fst (fst z)) (snd (fst z)) (snd z)) (fun d z => lslow (Fin a) (c =? k - 1)%Z d (fst (fst z)) (snd (fst z)) (snd z))) as HA. rewrite E1, E3 in HA.
  pose proof (Ok_inj _ _ (eq_trans (eq_sym Ea) HA)) as E5. subst q'. eexists. eexists. split; [reflexivity|]. rewrite <- E1 in Ef. rewrite <- E2 in Ex. rewrite <- E3 in Es. rewrite (elt_map3 W pos _ _ _ _ Ef Ex Es). cbn [fst snd]. f_equal.
  unfold lslow, ldiff. rewrite conv_x, weak_bool_val. destruct (Z.eqb_spec c (k - 1)) as [|_]; [lia|]. destruct x as [r| | |]; [exfalso; apply Hnf; eexists; reflexivity| | |]; cbn; rewrite ?rsgn_0; reflexivity.
Qed.

(*@ C36_params : the fast optimiser is handed the whole LookaheadParams pair: whenever it raises on that, so does lookahead; and without params lookahead always raises. *)
Lemma look_params : forall `{O : Ops} (opt : GT) (k : Z) (a : F) (reset : bool) (T : GT) (g : tree tensor) (si : state) (c : Z), lookahead opt k a reset = Ok T ->
  (forall q e, update opt g si (Some q) = Err e -> update T g (SNode NLookahead [si; SInt I32 c]) (Some q) = Err e) /\
  exists e, update T g (SNode NLookahead [si; SInt I32 c]) None = Err e.
Proof.
  intros O opt k a reset T g si c HT. unfold lookahead in HT. destruct (k <? 1)%Z; [discriminate|]. injection HT as <-. cbn [update]. split.
  - intros q e E. rewrite E. reflexivity.
  - destruct (update opt g si None) as [[u si']|e]; cbn [rbind]; eauto.
Qed.
Lemma tzip_not_pair {A B} (t : tree A) (f s : tree B) : not_pair t -> (exists a, t = Leaf a) \/ tzip t (LookaheadParams f s) = Err EValue.
Proof.
  intros H. destruct t as [a|kd ts]; [left; eauto|right]. cbn [tzip LookaheadParams]. destruct (kind_eqb kd _) eqn:E; [|reflexivity]. apply kind_eqb_eq in E. subst. destruct (H ts eq_refl).
Qed.
Lemma tzip_pair_not {A B} (f s : tree A) (t : tree B) : not_pair t -> tzip (LookaheadParams f s) t = Err EValue.
Proof.
  intros H. unfold LookaheadParams. cbn [tzip]. destruct t as [a|kd ts]; [reflexivity|]. destruct (kind_eqb _ kd) eqn:E; [|reflexivity]. apply kind_eqb_eq in E. subst. destruct (H ts eq_refl).
Qed.
Lemma tmm2_not_pair {A B C} (h : A -> B -> result C) (t : tree A) (f s : tree B) : not_pair t -> exists e, tmm2 h t (LookaheadParams f s) = Err e.
Proof. intros H. unfold tmm2. destruct (tzip_not_pair t f s H) as [(a & ->)| ->]; cbn; eauto. Qed.
Lemma not_pair_tmapM {A B} (h : A -> result B) t r : tmapM h t = Ok r -> not_pair t -> not_pair r.
Proof. intros E H ts ->. destruct t as [a|kd l]; cbn [tmapM] in E; [destruct (h a); discriminate|]. destruct (mapM _ l); [|discriminate]. injection E as -> _. exact (H l eq_refl). Qed.
Lemma pair_refused : forall `{O : Ops} (wd clipping eps min_norm : F) (t : GT), In t [add_decayed_weights wd; keep_params_nonnegative; scale_by_trust_ratio min_norm; adaptive_grad_clip clipping eps] ->
  forall g f s st, not_pair g -> exists e, update t g st (Some (LookaheadParams f s)) = Err e.
Proof.
  intros O wd clipping eps min_norm t Ht g f s st H. cbn in Ht. decompose [or] Ht; subst; try easy; cbn [update stateless add_decayed_weights keep_params_nonnegative scale_by_trust_ratio adaptive_grad_clip].
  - match goal with |- context [tmm2 ?h g _] => destruct (tmm2_not_pair h g f s H) as (e & ->) end. cbn. eauto.
  - unfold tmm2. rewrite (tzip_pair_not f s g H). cbn. eauto.
  - match goal with |- context [tmm2 ?h g _] => destruct (tmm2_not_pair h g f s H) as (e & ->) end. cbn. eauto.
  - destruct (tmapM unitwise_norm g) as [gn|] eqn:Eg; cbn [rbind]; [|eauto]. destruct (tmapM unitwise_norm (LookaheadParams f s)) as [pn|] eqn:Ep; cbn [rbind]; [|eauto].
    unfold LookaheadParams in Ep. cbn [tmapM mapM rmap] in Ep. cbn [mapM] in Ep. destruct (tmapM unitwise_norm f) as [fn|]; cbn in Ep; [|discriminate]. destruct (tmapM unitwise_norm s) as [sn|]; cbn in Ep; [|discriminate]. injection Ep as <-.
    cbn [tmap map]. pose proof (not_pair_tmapM _ _ _ Eg H) as Hg. match goal with |- context [tmm3 _ gn (Node _ [?a; ?b]) _] => destruct (tzip_not_pair gn a b Hg) as [(q & ->)|Ez] end.
    + cbn. destruct g as [a|kd l]; [cbn; eauto|]. cbn [tmapM] in Eg. destruct (mapM _ l); discriminate.
    + unfold LookaheadParams in Ez. unfold tmm3. rewrite Ez. cbn. eauto.
Qed.
(*@ C36_params_leafwise : so lookahead around a chain containing add_decayed_weights, keep_params_nonnegative, scale_by_trust_ratio or adaptive_grad_clip (after transformations that ignore params and do not raise) raises at the very first update, unless the parameters themselves are LookaheadParams pairs. *)
Lemma look_params_leafwise : forall `{O : Ops} (pre post : list GT) (t T : GT) (k : Z) (a wd clipping eps min_norm : F) (reset : bool) (p0 slow g : tree tensor) (s0 : state),
  like p0 p0 -> like p0 g -> not_pair p0 -> Forall (fun t => exists I, steady true t p0 I) pre ->
  In t [add_decayed_weights wd; keep_params_nonnegative; scale_by_trust_ratio min_norm; adaptive_grad_clip clipping eps] ->
  lookahead (chain_gt (pre ++ t :: post)) k a reset = Ok T -> init T (LookaheadParams p0 slow) = Ok s0 ->
  exists e, update T g s0 (Some (LookaheadParams p0 slow)) = Err e.
Proof.
  intros O pre post t T k a wd clipping eps min_norm reset p0 slow g s0 Hp Hg Hnp Hpre Ht HT Hi.
  assert (Hlike : forall u, like p0 u -> not_pair u).
  { intros u (Hu & _) ts ->. destruct p0 as [b|kd l]; [discriminate|]. unfold avals in Hu. cbn in Hu. injection Hu as <- _. exact (Hnp l eq_refl). }
  assert (Hch : forall pre, Forall (fun t => exists I, steady true t p0 I) pre -> forall ss, chain_init (pre ++ t :: post) p0 = Ok ss -> length ss = length (pre ++ t :: post) /\ forall u, like p0 u -> exists e, chain_update (pre ++ t :: post) ss u (Some (LookaheadParams p0 slow)) = Err e).
  { clear pre Hpre HT Hi. assert (Hlen : forall ts ss, chain_init ts p0 = Ok ss -> length ss = length ts).
    { induction ts as [|t' ts IH]; intros ss E; cbn [chain_init] in E; [now injection E as <-|]. apply rbind_Ok in E as (s & _ & E). apply rbind_Ok in E as (q & Eq & E). injection E as <-. cbn. f_equal. auto. }
    induction pre as [|t' pre IH]; intros Hpre ss E; (split; [now apply Hlen|]); intros u Hu.
    - cbn [app chain_init] in E. apply rbind_Ok in E as (s & _ & E). apply rbind_Ok in E as (q & Eq & E). injection E as <-. cbn [app chain_update].
      destruct (pair_refused wd clipping eps min_norm t Ht u p0 slow s (Hlike u Hu)) as (e & ->). cbn. eauto.
    - inversion Hpre as [|? ? (I & (i0 & Ei0 & HI) & Hst) Hp']; subst. cbn [app chain_init] in E. apply rbind_Ok in E as (s & Es & E). apply rbind_Ok in E as (q & Eq & E). injection E as <-.
      assert (s = i0) by congruence. subst i0. cbn [app chain_update]. destruct (Hst s u (Some (LookaheadParams p0 slow)) HI Hu) as (u' & s' & E & Hu' & _); [discriminate|]. rewrite E. cbn [rbind].
      destruct (IH Hp' q Eq) as (_ & IH'). destruct (IH' u' Hu') as (e & ->). cbn. eauto. }
  assert (Hi2 : exists si, init (chain_gt (pre ++ t :: post)) p0 = Ok si /\ s0 = SNode NLookahead [si; SInt I32 0]).
  { unfold lookahead in HT. destruct (k <? 1)%Z; [discriminate|]. injection HT as <-. cbn [init] in Hi. unfold LookaheadParams in Hi. cbn [getattr field_of String.eqb Ascii.eqb Bool.eqb] in Hi. apply rbind_Ok in Hi as (si & E & Hi). injection Hi as <-. eauto. }
  destruct Hi2 as (si & Ei & ->). destruct (look_params _ _ _ _ _ g si 0%Z HT) as (Hl & _).
  cbn [chain_gt init] in Ei. destruct (chain_init _ p0) as [ss|] eqn:E; [|discriminate]. injection Ei as <-. destruct (Hch pre Hpre ss E) as (Hlen & Hu). destruct (Hu g Hg) as (e & Ee).
  exists e. apply Hl. cbn [chain_gt update]. rewrite Hlen, Nat.eqb_refl, Ee. reflexivity.
Qed.

(*@ C35_fast_ok : every elementwise transformation of the model that ignores params (scale, scale_by_schedule, clip, trace, ema, adam, ... and chains of them) is such a fast optimiser, on all gradients. *)
Lemma look_fast_ok : forall `{O : Ops} (opt : GT) (M : machine) (p0 : tree tensor), refines true opt M -> trwf p0 ->
  exists I, fast_ok opt p0 (fun _ => True) I /\ forall s s', I s -> I s' -> ssig s = ssig s'.
Proof.
  intros O opt M p0 (repr & sg & Hi & Hsg & Hnp & Hu) Hw. exists (fun s => exists n Z, s = repr n Z /\ avals Z = avals p0 /\ trwf Z).
  split; [split|].
  - intros f (Hf & Hfw). rewrite Hi by exact Hfw. eexists. split; [reflexivity|]. exists 0, (emapt (m_init M) f). split; [reflexivity|]. rewrite emapt_avals. split; [exact Hf|now apply emapt_wf].
  - intros s u par (n & Z & -> & HZ & HZw) (Hua & Huw) _. destruct (tree_gzip u Z) as (W1 & A1 & B1 & <- & <-); [congruence|exact Huw|exact HZw|].
    specialize (Hu n (emapt (fun _ z => (fst z, fst z, snd z)) W1) par). rewrite !emapt_emapt in Hu. cbn [fst snd] in Hu.
    eexists. eexists. split; [apply Hu; [now apply emapt_wf|discriminate]|]. rewrite !emapt_avals in *. split; [|eexists; eexists; split; [reflexivity|]]; (split; [rewrite ?emapt_avals; congruence|now repeat apply emapt_wf]).
  - intros s s' (n & Z & -> & HZ & _) (n' & Z' & -> & HZ' & _). rewrite !Hsg. congruence.
Qed.

Lemma trace_one `{P : Platform} r x s : exists y, update (trace (Fin (1/2)) false None) (one (Fin x)) (SNode NTrace [STree (one (Fin r))]) s = Ok (one (Fin y), SNode NTrace [STree (one (Fin y))]) /\ y = (x + 1/2 * r)%R.
Proof. eexists. split; [cbn; reflexivity|reflexivity]. Qed.
(*@ex C35_example *)
Lemma look_example : forall `{P : Platform}, let opt := trace (Fin (1/2)) false None in let I := fun s : state => exists r, s = SNode NTrace [STree (one (Fin r))] in let G := fun u => exists r, u = one (Fin r) in
  fast_ok opt (one (Fin 0)) G I /\ (forall s, I s -> plain s) /\ (forall s s', I s -> I s' -> ssig s = ssig s') /\
  Forall (fun g => like (one (Fin 0)) g /\ G g) [one (Fin 2); one (Fin 4); one (Fin 8)] /\
  look_seq 2 (1/2) 0 0 (fun n => match n with 0%nat => 2 | 1%nat => 5 | _ => 8 end)%R 3 = (23/2, 7/2)%R.
Proof.
  intros P opt I G. split; [split|split; [|split; [|split]]].
  - intros f (Hf & Hw). destruct f as [[d sh dl]|]; [|discriminate]. unfold avals in Hf. cbn in Hf. injection Hf as -> ->. inversion Hw as [|? ? H _]; subst. unfold twf in H. cbn in H. destruct dl as [|v [|? ?]]; try discriminate.
    eexists. split; [reflexivity|]. exists 0%R. cbn. unfold one. repeat f_equal. cbv [zeros_like full_like full]. cbn. repeat f_equal. unfold Q2R; cbn; lra.
  - intros s u par (r & ->) _ (x & ->). destruct (trace_one r x par) as (y & E & _). eexists. eexists. split; [exact E|]. split; [split; [reflexivity|apply one_wf]|exists y; reflexivity].
  - intros s (r & ->). cbn. split; [|exact Logic.I]. split; [apply one_wf|]. repeat constructor. eexists; reflexivity.
  - intros s s' (r & ->) (r' & ->). reflexivity.
  - repeat constructor; eexists; reflexivity.
  - cbn. f_equal; lra.
Qed.
(*@ex C36_example *)
Lemma look_limits_example : forall `{P : Platform}, let opt := trace (Fin (1/2)) false None in
  exists T lu s', lookahead opt 1 (Fin (1/2)) true = Ok T /\ init T (LookaheadParams (one (Fin 0)) (one (Fin 0))) = Ok (SNode NLookahead [SNode NTrace [STree (one (Fin 0))]; SInt I32 0]) /\
    update T (one NaN) (SNode NLookahead [SNode NTrace [STree (one (Fin 0))]; SInt I32 0]) (Some (LookaheadParams (one (Fin 0)) (one (Fin 0)))) = Ok (lu, s') /\
    s' = SNode NLookahead [SNode NTrace [STree (one NaN)]; SInt I32 0] /\
    not_pair ex_p /\ exists I, steady true (scale (Fin 2)) ex_p I.
Proof.
  intros P opt. eexists. eexists. eexists. split; [reflexivity|]. split; [cbn; unfold one; repeat f_equal; cbv [zeros_like full_like full]; cbn; repeat f_equal; unfold Q2R; cbn; lra|]. split; [cbn; reflexivity|]. split; [reflexivity|]. split; [intros ts E; discriminate|].
  apply (@refines_steady (XROps P) _ _ _ _ (@refines_scale (XROps P) (Fin 2)) ex_p_wf).
Qed.
