(** C74: how fast cmaes can shrink its search distribution, in exact arithmetic. *)
From Coq Require Import Reals Lra Lia.
From Verif Require Import Base Num NumR NumE Env Common DE CPSO NA Mat CMAES VDCMA Hoare EvalRules
  Gen Steps Hist Runs CmaRun Best Inst HistFacts HistBest PropPop Laws Valid Weights VdReal CmReal VdRun Trial Restart Flight Adapt VAdapt PropCma Reasons.
Open Scope R_scope.

(** [x] is not below [b]; NaN is not below anything. *)
Definition NB (b : R) (x : er) : Prop := er_ltb x (Fin b) = false.

Lemma NB_fin b r : NB b (Fin r) <-> b <= r.
Proof. unfold NB. cbn. apply Rltb_false. Qed.
Lemma NB_nan b : NB b NaN. Proof. reflexivity. Qed.
Lemma NB_inf b : NB b PInf. Proof. reflexivity. Qed.
Lemma NB_ninf b : ~ NB b NInf. Proof. unfold NB. cbn. discriminate. Qed.
Lemma NB_le a b x : a <= b -> NB b x -> NB a x.
Proof.
  intros H. destruct x as [r| | |]; rewrite ?NB_fin; intros Hx; try reflexivity; [lra|]. destruct (NB_ninf _ Hx).
Qed.
Ltac nbcase x := let r := fresh "r" in destruct x as [r| | |]; rewrite ?NB_fin in *;
  try reflexivity; try (match goal with H : NB _ NInf |- _ => destruct (NB_ninf _ H) end).

Lemma NB_add a b x y : NB a x -> NB b y -> NB (a + b) (er_add x y).
Proof. intros Hx Hy. nbcase x; nbcase y; cbn [er_add]; rewrite ?NB_fin; try reflexivity. lra. Qed.
Lemma sgn_pos r p n z : 0 < r -> er_sgn r p n z = p.
Proof. intros H. unfold er_sgn. destruct (Rlt_dec 0 r); [reflexivity|contradiction]. Qed.
Lemma sgn_ge r n : 0 <= r -> er_sgn r PInf n NaN = PInf \/ er_sgn r PInf n NaN = NaN.
Proof. intros H. unfold er_sgn. destruct (Rlt_dec 0 r); [auto|]. destruct (Rlt_dec r 0); [lra|auto]. Qed.
Lemma NB_mul a b x y : 0 <= a -> 0 <= b -> NB a x -> NB b y -> NB (a * b) (er_mul x y).
Proof.
  intros Ha Hb Hx Hy. nbcase x; nbcase y; cbn [er_mul]; rewrite ?NB_fin; try reflexivity.
  - apply Rmult_le_compat; assumption.
  - destruct (sgn_ge r NInf) as [->| ->]; [lra| |]; reflexivity.
  - destruct (sgn_ge r NInf) as [->| ->]; [lra| |]; reflexivity.
Qed.
Lemma NB_sq x : NB 0 (er_mul x x).
Proof. destruct x; cbn [er_mul]; rewrite ?NB_fin; try reflexivity. nra. Qed.
Lemma NB_sqrt a x : 0 <= a -> NB a x -> NB (sqrt a) (er_sqrt x).
Proof.
  intros Ha Hx. nbcase x. cbn [er_sqrt]. destruct (Rlt_dec r 0); [reflexivity|]. rewrite NB_fin. apply sqrt_le_1; lra.
Qed.
Lemma NB_sqrt0 x : NB 0 (er_sqrt x).
Proof.
  destruct x; cbn [er_sqrt]; try reflexivity. destruct (Rlt_dec r 0); [reflexivity|]. rewrite NB_fin. apply sqrt_pos.
Qed.
Lemma NB_exp a x : NB a x -> NB (exp a) (er_exp x).
Proof.
  intros Hx. nbcase x. cbn [er_exp]. rewrite NB_fin. destruct (Rle_lt_or_eq_dec _ _ Hx) as [H| ->]; [left; apply exp_increasing, H|lra].
Qed.
Lemma NB_div0 x k : 0 < k -> NB 0 x -> NB 0 (er_div x (Fin k)).
Proof.
  intros Hk Hx. nbcase x; cbn [er_div]; [|rewrite sgn_pos by exact Hk; reflexivity].
  destruct (Req_EM_T k 0); [lra|]. rewrite NB_fin. apply Rmult_le_pos; [exact Hx|left; apply Rinv_0_lt_compat, Hk].
Qed.

Lemma NB_sub a b x : NB a x -> NB (a - b) (er_sub x (Fin b)).
Proof. intros Hx. nbcase x. cbn [er_sub]. rewrite NB_fin. lra. Qed.
Lemma NB_scale c b x : 0 <= c -> NB b x -> NB (c * b) (er_mul (Fin c) x).
Proof.
  intros Hc Hx. nbcase x; cbn [er_mul]; [rewrite NB_fin; nra|]. destruct (sgn_ge c NInf Hc) as [->| ->]; reflexivity.
Qed.

(** ** Sums *)
Lemma Sum_S n f : @Sum ENum (S n) f = er_add (@Sum ENum n f) (f n).
Proof.
  unfold Sum, vsum. rewrite seq_S, map_app, fold_left_app. reflexivity.
Qed.
Lemma NB_Sum n f : (forall k, (k < n)%nat -> NB 0 (f k)) -> NB 0 (@Sum ENum n f).
Proof.
  induction n as [|n IH]; intros H.
  - unfold Sum, vsum. cbn [seq map fold_left]. apply NB_fin. unfold Rlit. cbn. lra.
  - rewrite Sum_S. replace 0 with (0 + 0) by lra. apply NB_add; [apply IH; intros k Hk; apply H; lia|apply H; lia].
Qed.
Lemma add_0_l x : er_add (Fin 0) x = x.
Proof. destruct x; cbn; rewrite ?Rplus_0_l; reflexivity. Qed.
Lemma add_0_r x : er_add x (Fin 0) = x.
Proof. destruct x; cbn; rewrite ?Rplus_0_r; reflexivity. Qed.
Lemma add_nan_r x : er_add x NaN = NaN.
Proof. destruct x; reflexivity. Qed.
Lemma Sum_zeros n f : (forall l, (l < n)%nat -> f l = Fin 0 \/ f l = NaN) ->
  @Sum ENum n f = Fin 0 \/ @Sum ENum n f = NaN.
Proof.
  induction n as [|n IH]; intros H; [left; reflexivity|]. rewrite Sum_S.
  destruct IH as [->| ->]; [intros l Hl; apply H; lia| |right; reflexivity].
  rewrite add_0_l. apply H. lia.
Qed.
(** A sum in which all terms but one are 0 (or NaN). *)
Lemma Sum_single n f k : (k < n)%nat -> (forall l, (l < n)%nat -> l <> k -> f l = Fin 0 \/ f l = NaN) ->
  @Sum ENum n f = f k \/ @Sum ENum n f = NaN.
Proof.
  induction n as [|n IH]; intros Hk H; [lia|]. rewrite Sum_S. destruct (Nat.eq_dec k n) as [->|Hn].
  - destruct (Sum_zeros n f) as [->| ->]; [intros l Hl; apply H; lia|left; apply add_0_l|right; reflexivity].
  - destruct (H n ltac:(lia) ltac:(lia)) as [->| ->].
    + rewrite add_0_r. apply IH; [lia|intros l Hl Hl'; apply H; lia].
    + right. apply add_nan_r.
Qed.
Lemma mul_0_r x : er_mul x (Fin 0) = Fin 0 \/ er_mul x (Fin 0) = NaN.
Proof.
  destruct x; cbn [er_mul]; [left; f_equal; lra| | |right; reflexivity]; right; unfold er_sgn;
    destruct (Rlt_dec 0 0) as [H|]; try lra; reflexivity.
Qed.
Lemma mul_mul x w : 0 <= w -> NB 0 (er_mul (er_mul x (Fin w)) x).
Proof.
  intros Hw. destruct x as [r| | |]; cbn [er_mul]; [rewrite NB_fin; nra| | |reflexivity].
  - destruct (sgn_ge w NInf Hw) as [->| ->]; reflexivity.
  - unfold er_sgn. destruct (Rlt_dec 0 w); [reflexivity|]. destruct (Rlt_dec w 0); [lra|reflexivity].
Qed.
(** The diagonal of a weighted sum of squares. *)
Lemma NB_prod n (y : nat -> nat -> er) (W : nat -> er) i :
  (forall k, (k < n)%nat -> exists w, 0 <= w /\ W k = Fin w) ->
  NB 0 (@Prod ENum n (@Prod ENum n (fun i k => y k i) (@Diag ENum W)) y i i).
Proof.
  intros HW. unfold Prod. apply NB_Sum. intros k Hk.
  destruct (Sum_single n (fun l => er_mul (y l i) (@Diag ENum W l k)) k Hk) as [H|H].
  - intros l Hl Hlk. unfold Diag. replace (l =? k)%nat with false by (symmetry; apply Nat.eqb_neq, Hlk). apply mul_0_r.
  - destruct (HW k Hk) as (w & Hw & HWk).
    refine (eq_ind_r (fun v : er => NB 0 (er_mul v (y k i))) _ H). unfold Diag. rewrite Nat.eqb_refl, HWk. apply mul_mul, Hw.
  - refine (eq_ind_r (fun v : er => NB 0 (er_mul v (y k i))) _ H). reflexivity.
Qed.

(** ** The rates, for the dimension [d] and [mu] parents *)
Definition total (n : nat) (f : nat -> R) : R := rsum (map f (seq 0 n)).
Definition lrank (mu k : nat) : R := ln (INR mu + /2) - ln (INR (S k)).
Definition wgt (mu k : nat) : R := lrank mu k / total mu (lrank mu).
(** the effective number of parents *)
Definition eff (mu : nat) : R := 1 / total mu (fun k => wgt mu k * wgt mu k).
Definition r_cs (d m : R) : R := (m + 2) / (d + m + 5).
Definition r_damp (d m : R) : R := 1 + 2 * Rmax 0 (sqrt ((m - 1) / (d + 1)) - 1) + r_cs d m.
Definition r_c1 (d m : R) : R := 2 / ((d + 13/10) * (d + 13/10) + m).
Definition r_cmu (d m : R) : R := Rmin (1 - r_c1 d m) (2 * (m - 2 + 1 / m) / ((d + 2) * (d + 2) + m)).
(** The least factor of the step size, and of a variance, in one generation. *)
Definition slow_size (d m : R) : R := exp (- (r_cs d m / r_damp d m)).
Definition slow_var (d m : R) : R := 1 - r_c1 d m - r_cmu d m.
Definition slowest (d mu : nat) : R := slow_size (INR d) (eff mu) * sqrt (slow_var (INR d) (eff mu)).

Lemma weights_R mu : @cma_weights RArith mu = map (wgt mu) (seq 0 mu).
Proof.
  assert (H : @raw_weights RArith mu = map (lrank mu) (seq 0 mu)).
  { rewrite raw_weights_eq, <- seq_shift. exact (map_map _ _ _). }
  unfold cma_weights. cbv zeta. rewrite vsum_rsum, H. exact (map_map _ _ _).
Qed.
Lemma eff_R mu : (1 <= mu)%nat -> @cma_mueff RArith (@cma_weights RArith mu) = eff mu.
Proof.
  intros H. destruct (C27_weights mu H) as (_ & _ & _ & Hs). cbv zeta in Hs.
  unfold cma_mueff. rewrite !vsum_rsum, Hs. unfold eff, total, nsq. cbn [nmul ndiv RArith].
  rewrite Rmult_1_l. f_equal. f_equal. rewrite weights_R. exact (map_map _ _ _).
Qed.
Lemma eff_ge mu : (1 <= mu)%nat -> 1 <= eff mu <= INR mu.
Proof. intros H. rewrite <- eff_R by exact H. apply C27_mueff, H. Qed.
Lemma Weight_E mu k : (k < mu)%nat -> @Weight ENum mu k = Fin (wgt mu k) /\ 0 <= wgt mu k.
Proof.
  intros H. assert (Hm : (1 <= mu)%nat) by lia. split.
  - rewrite <- (@weights_at ENum) by exact H. change (@num_arith ENum) with EArith.
    rewrite cma_weights_E, weights_R by exact Hm. 
    assert (G : forall l : list nat, (k < length l)%nat -> nth k (fin (map (wgt mu) l)) (Fin 0) = Fin (wgt mu (nth k l 0%nat))).
    { clear. intros l. revert k. induction l as [|a l IH]; intros k Hk; [cbn in Hk; lia|]. destruct k; [reflexivity|].
      apply IH. cbn in Hk. lia. }
    specialize (G (seq 0 mu)). rewrite seq_length, seq_nth in G by exact H. exact (G H).
  - destruct (C27_weights mu Hm) as (_ & Hp & _). cbv zeta in Hp. rewrite weights_R in Hp.
    rewrite Forall_forall in Hp. left. apply Hp, in_map, in_seq. lia.
Qed.

(** The constants of a run in exact arithmetic. *)
Lemma Rates_E d mu : (1 <= d)%nat -> (1 <= mu)%nat ->
  exists cc chi, 0 < cc < 1 /\ 0 < chi /\
    @Rates ENum d mu (Fin (eff mu)) (Fin cc) (Fin (r_cs (INR d) (eff mu))) (Fin (r_c1 (INR d) (eff mu)))
           (Fin (r_cmu (INR d) (eff mu))) (Fin (r_damp (INR d) (eff mu))) (Fin chi).
Proof.
  intros Hd Hmu. destruct (chind_C d Hd) as (chi & Hchi & Ec).
  pose proof (C27_cma d mu Hd Hmu) as H. cbv zeta in H. rewrite eff_R, nN_R in H by exact Hmu.
  destruct H as (Hcc & _). pose proof (proj1 (eff_ge mu Hmu)) as Hm. set (m := eff mu) in *.
  assert (Hn : 1 <= INR d) by (apply (le_INR 1); exact Hd).
  assert (Ed : @nN EArith d = Fin (INR d)) by apply nN_E.
  assert (E1 : Fin (r_c1 (INR d) m) = @cma_c1 EArith (Fin (INR d)) (Fin m)).
  { rewrite c1_E by assumption. reflexivity. }
  assert (E2 : Fin (r_cs (INR d) m) = @cma_cs EArith (Fin (INR d)) (Fin m)).
  { rewrite csig_C by assumption. reflexivity. }
  assert (E3 : Fin (r_cmu (INR d) m) = @cma_cmu EArith (Fin (INR d)) (Fin m)).
  { rewrite cmu_C by assumption. f_equal. unfold r_cmu, cma_cmu, pymin. cbn [nltb RArith].
    change (@cma_c1 RArith (INR d) m) with (r_c1 (INR d) m).
    unfold nsq, nZ. cbn [nadd nsub nmul ndiv nlit RArith n1]. unfold n1, nZ. cbn [nlit RArith Rlit].
    unfold Rltb. destruct (Rlt_dec _ _) as [H|H].
    - apply Rmin_right. left. exact H.
    - apply Rmin_left. apply Rnot_lt_le. exact H. }
  assert (E4 : Fin (r_damp (INR d) m) = @cma_damps EArith (Fin (INR d)) (Fin m)).
  { rewrite damps_C by assumption. f_equal. unfold r_damp, cma_damps, pymax. cbn [nltb RArith].
    change (@cma_cs RArith (INR d) m) with (r_cs (INR d) m).
    unfold n0, n1, nZ. cbn [nadd nsub nmul ndiv nlit nsqrt RArith Rlit].
    unfold Rltb. destruct (Rlt_dec _ _) as [H|H].
    - rewrite Rmax_right by (left; exact H). reflexivity.
    - rewrite Rmax_left by (apply Rnot_lt_le; exact H). reflexivity. }
  exists (@cma_cc RArith (INR d) m), chi. split; [exact Hcc|]. split; [exact Hchi|].
  constructor; change (@num_arith ENum) with EArith.
  - rewrite <- (@mueff_sum ENum). change (@num_arith ENum) with EArith. rewrite cma_mueff_E by exact Hmu. unfold m. rewrite eff_R by exact Hmu. reflexivity.
  - rewrite Ed. rewrite <- cc_C by assumption. reflexivity.
  - rewrite Ed, E2. reflexivity.
  - rewrite Ed, E1. reflexivity.
  - rewrite Ed, E1, E3. reflexivity.
  - rewrite Ed, E2, E4. reflexivity.
  - rewrite <- Ec. reflexivity.
Qed.
Lemma rate_facts d mu : (1 <= d)%nat -> (1 <= mu)%nat ->
  0 < r_cs (INR d) (eff mu) < 1 /\ 0 < r_c1 (INR d) (eff mu) < 1 /\ 0 <= r_cmu (INR d) (eff mu) /\
  0 <= slow_var (INR d) (eff mu) /\ 1 + r_cs (INR d) (eff mu) <= r_damp (INR d) (eff mu).
Proof.
  intros Hd Hmu. pose proof (C27_cma d mu Hd Hmu) as H. cbv zeta in H. rewrite eff_R, nN_R in H by exact Hmu.
  destruct H as (_ & Hcs & Hc1 & Hcmu & Hs & _). pose proof (proj1 (eff_ge mu Hmu)) as Hm. set (m := eff mu) in *.
  assert (Hn : 1 <= INR d) by (apply (le_INR 1); exact Hd).
  assert (E3 : r_cmu (INR d) m = @cma_cmu RArith (INR d) m).
  { unfold r_cmu, cma_cmu, pymin. cbn [nltb RArith].
    change (@cma_c1 RArith (INR d) m) with (r_c1 (INR d) m).
    unfold nsq, nZ. cbn [nadd nsub nmul ndiv nlit RArith n1]. unfold n1, nZ. cbn [nlit RArith Rlit].
    unfold Rltb. destruct (Rlt_dec _ _) as [H|H].
    - apply Rmin_right. left. exact H.
    - apply Rmin_left. apply Rnot_lt_le. exact H. }
  unfold slow_var. rewrite E3. change (@cma_c1 RArith (INR d) m) with (r_c1 (INR d) m) in *.
  change (@cma_cs RArith (INR d) m) with (r_cs (INR d) m) in *.
  split; [exact Hcs|]. split; [exact Hc1|]. split; [exact Hcmu|]. split; [lra|].
  unfold r_damp. pose proof (Rmax_l 0 (sqrt ((m - 1) / (INR d + 1)) - 1)). lra.
Qed.

Lemma pow_succ_r x n : x ^ S n = x ^ n * x.
Proof. cbn. ring. Qed.
(** One generation. *)
Definition Large (d mu : nat) (s0 : R) (n : nat) (S : @Dist ENum) : Prop :=
  NB (s0 * slow_size (INR d) (eff mu) ^ n) (size S) /\
  forall j, (j < d)%nat -> NB (slow_var (INR d) (eff mu) ^ n) (nth j (nth j (cov S) []) (Fin 0)).

Lemma slow_size_pos d m : 0 < slow_size d m.
Proof. apply exp_pos. Qed.
Lemma Large_step {E : Env ENum} d mu p nf X K S S' s0 n : (1 <= d)%nat -> (1 <= mu)%nat -> 0 <= s0 ->
  @Adapted ENum E d mu p nf X K S S' -> Large d mu s0 n S -> Large d mu s0 (Datatypes.S n) S'.
Proof.
  intros Hd Hmu Hs0 HA [HS HC]. destruct (Rates_E d mu Hd Hmu) as (cc & chi & Hcc & Hchi & HR).
  destruct (rate_facts d mu Hd Hmu) as (Hcs & Hc1 & Hcmu & Hv & Hdm).
  pose proof (ad_law _ _ _ _ _ _ _ _ HA _ _ _ _ _ _ _ HR) as H. cbv zeta in H.
  destruct H as (_ & _ & _ & Hsz & Hcov). unfold slow_size, slow_var, Large in *.
  set (m := eff mu) in *. set (n1' := INR d) in *.
  split.
  - rewrite Hsz. rewrite pow_succ_r. rewrite <- Rmult_assoc. apply NB_mul.
    + apply Rmult_le_pos; [exact Hs0|]. apply pow_le. left. apply exp_pos.
    + left. apply exp_pos.
    + exact HS.
    + apply NB_exp. change (NB (- (r_cs n1' m / r_damp n1' m))
        (er_mul (er_div (Fin (r_cs n1' m)) (Fin (r_damp n1' m))) (er_sub (er_div (Norm d (path_s S')) (Fin chi)) (Fin (Rlit 1 0))))).
      rewrite div_fin by lra.
      replace (- (r_cs n1' m / r_damp n1' m)) with (r_cs n1' m / r_damp n1' m * (0 - Rlit 1 0)) by (unfold Rlit; lra).
      apply NB_scale; [apply Rmult_le_pos; [lra|left; apply Rinv_0_lt_compat; lra]|].
      apply NB_sub, NB_div0; [exact Hchi|apply NB_sqrt0].
  - intros j Hj.
    assert (HD : forall hs y, NB ((1 - r_c1 n1' m - r_cmu n1' m) ^ Datatypes.S n)
      (er_add (er_add (er_add (er_mul (nth j (nth j (cov S) []) (Fin 0)) (er_sub (er_sub (Fin (Rlit 1 0)) (Fin (r_c1 n1' m))) (Fin (r_cmu n1' m))))
        (er_mul (Fin (r_cmu n1' m)) (@Prod ENum mu (@Prod ENum mu (fun i k => y k i) (@Diag ENum (@Weight ENum mu))) y j j)))
        (er_mul (Fin (r_c1 n1' m)) (er_mul (nth j (path_c S') (Fin 0)) (nth j (path_c S') (Fin 0)))))
        (if hs : bool then Fin (Rlit 0 0) else
           er_mul (er_mul (er_mul (Fin (r_c1 n1' m)) (Fin cc)) (er_sub (Fin (Rlit 2 0)) (Fin cc))) (nth j (nth j (cov S) []) (Fin 0))))).
    { intros hs y. rewrite pow_succ_r.
      replace ((1 - r_c1 n1' m - r_cmu n1' m) ^ n * (1 - r_c1 n1' m - r_cmu n1' m))
        with ((1 - r_c1 n1' m - r_cmu n1' m) ^ n * (1 - r_c1 n1' m - r_cmu n1' m) + 0 + 0 + 0) by ring.
      specialize (HC j Hj).
      assert (Hp : 0 <= (1 - r_c1 n1' m - r_cmu n1' m) ^ n) by (apply pow_le, Hv).
      apply NB_add; [apply NB_add; [apply NB_add|]|].
      - cbn [er_sub]. apply NB_mul; [exact Hp|exact Hv|exact HC|]. rewrite NB_fin. unfold Rlit. lra.
      - replace 0 with (r_cmu n1' m * 0) by ring. apply NB_scale; [exact Hcmu|]. apply NB_prod. intros k Hk.
        destruct (Weight_E mu k Hk) as [H1 H2]. eauto.
      - replace 0 with (r_c1 n1' m * 0) by ring. apply NB_scale; [lra|]. apply NB_sq.
      - destruct hs; [rewrite NB_fin; unfold Rlit; lra|]. cbn [er_sub er_mul].
        apply NB_le with (b := r_c1 n1' m * cc * (Rlit 2 0 - cc) * 0); [rewrite Rmult_0_r; lra|]. apply NB_scale.
        + unfold Rlit. apply Rmult_le_pos; [apply Rmult_le_pos; lra|lra].
        + eapply NB_le; [|exact HC]. exact Hp. }
    assert (HZ : NB 0 (Fin (Rlit 0 0))) by (rewrite NB_fin; unfold Rlit; lra).
    match type of Hcov with (if ?b then _ else _) => destruct b end.
    + destruct Hcov as (_ & Hcov & _). specialize (Hcov j j Hj Hj). rewrite Nat.leb_refl in Hcov.
      refine (eq_ind_r (fun v : er => NB _ v) _ Hcov).
      apply NB_le with (b := (1 - r_c1 n1' m - r_cmu n1' m) ^ Datatypes.S n + 0); [unfold slow_var; lra|].
      exact (NB_add _ 0 _ _ (HD _ (fun k j => er_div (er_sub (nth j (nth (nth k K 0%nat) X []) (Fin 0)) (nth j (mean S) (Fin 0))) (size S))) HZ).
    + destruct Hcov as (_ & _ & _ & _ & Hcov). specialize (Hcov j j Hj Hj).
      refine (eq_ind_r (fun v : er => NB _ v) _ Hcov). exact (HD _ (fun k j => er_div (er_sub (nth j (nth (nth k K 0%nat) X []) (Fin 0)) (nth j (mean S) (Fin 0))) (size S))).
Qed.

(** A whole run. *)
Lemma Large_run {E : Env ENum} A rows mu p D F h n c s0 : (1 <= length rows)%nat -> (1 <= mu)%nat -> 0 <= s0 ->
  caa_sigma A = Fin s0 -> @Start ENum E A rows (D 0%nat) ->
  @Course ENum _ (@CmaGen ENum E A (length rows) mu p) D F h n c ->
  forall i, (i <= n)%nat -> Large (length rows) mu s0 i (D i).
Proof.
  intros Hd Hmu Hs0 Hsig HS [_ HC]. induction i as [|i IH]; intros Hi.
  - split.
    + rewrite (st_size _ _ _ HS), Hsig. apply (proj2 (NB_fin _ _)). cbn. lra.
    + intros j Hj. pose proof (proj1 (st_one _ _ _ HS j j Hj Hj)) as H. cbv zeta in H. rewrite Nat.eqb_refl in H.
      refine (eq_ind_r (fun v : er => NB _ v) _ H). apply (proj2 (NB_fin _ _)). unfold Rlit. cbn. lra.
  - destruct (HC i ltac:(lia)) as [(X & K & _ & _ & _ & HA) _].
    eapply Large_step; [exact Hd|exact Hmu|exact Hs0|exact HA|]. apply IH. lia.
Qed.

Lemma pow_mult x y n : (x * y) ^ n = x ^ n * y ^ n.
Proof. apply Rpow_mult_distr. Qed.
Lemma sqrt_pow x n : 0 <= x -> sqrt (x ^ n) = sqrt x ^ n.
Proof.
  intros Hx. induction n as [|n IH]; cbn; [apply sqrt_1|]. rewrite sqrt_mult, IH; [reflexivity|exact Hx|apply pow_le, Hx].
Qed.

(** C74: the status -3 (steps below 1e-10) and -8 (steps below 1e-11 of the first step size) need as
    many generations as the slowest rate takes to get there. *)
Theorem C74_cmaes {E : Env ENum} (HE : EnvOK) (HEig : EighShape) (HEmp : EmptyShape) A rows k s0 w a0 res st' :
  a_bounds (caa A) = D2 2 rows -> a_backend (caa A) <> Some "mpi"%string ->
  @ntrunc ENum (caa_muperc A * nZ (a_popsize (caa A)))%num = Some k -> (1 <= k <= a_popsize (caa A))%Z ->
  (1 <= length rows)%nat -> caa_sigma A = Fin s0 -> 0 < s0 ->
  exec (cmaes_minimize A) w a0 = (inl res, st') ->
  let r := slowest (length rows) (Z.to_nat k) in
  0 <= r < 1 /\
  (r_status res = (-3)%Z -> 2 / 10 * s0 * r ^ Z.to_nat (r_nit res) < / 10 ^ 10) /\
  (r_status res = (-8)%Z -> r ^ Z.to_nat (r_nit res) < / 10 ^ 11).
Proof.
  intros Hb Hm Hk Hkp Hd Hsig Hs0 Hx r.
  set (d := length rows) in *. set (mu := Z.to_nat k) in *.
  assert (Hmu : (1 <= mu)%nat) by (unfold mu; lia).
  destruct (rate_facts d mu Hd Hmu) as (Hcs & Hc1 & Hcmu & Hv & Hdm).
  assert (Hq : 0 < slow_size (INR d) (eff mu) < 1).
  { split; [apply slow_size_pos|]. unfold slow_size. rewrite <- exp_0. apply exp_increasing.
    assert (0 < r_cs (INR d) (eff mu) / r_damp (INR d) (eff mu)) by (apply Rdiv_lt_0_compat; lra). lra. }
  assert (Hsv : 0 <= sqrt (slow_var (INR d) (eff mu)) <= 1).
  { split; [apply sqrt_pos|]. apply Rle_trans with (sqrt 1); [apply sqrt_le_1; [exact Hv|lra|unfold slow_var; lra]|rewrite sqrt_1; lra]. }
  split; [unfold r, slowest; split; [apply Rmult_le_pos; lra|nra]|].
  destruct (@C70_cmaes ENum E HE HEig HEmp A rows k w a0 res st' Hb Hm Hk (proj2 Hkp) Hx) as (D & F & h & HSt & HC & _).
  pose proof (C01_nit_cma (CallCMA A) w a0 res st' HE Hx) as Hn. unfold cma_args in Hn. cbn [cma_cargs] in Hn.
  set (n := Z.to_nat (r_nit res)) in *. assert (Hn' : (1 <= n)%nat) by (unfold n; lia).
  destruct (Large_run A rows mu _ D F h n _ s0 Hd Hmu (Rlt_le _ _ Hs0) Hsig HSt HC n (le_n n)) as [HL HV].
  destruct HC as [_ HC]. specialize (HC (n - 1)%nat ltac:(lia)). destruct HC as [_ HC].
  replace (S (n - 1)) with n in HC by lia. rewrite Nat.eqb_refl in HC.
  destruct HC as (w' & hi & lo & hi' & lo' & top & _ & _ & _ & _ & _ & Htop & na & co & _ & Hc).
  symmetry in Hc. apply FirstOf_In in Hc.
  assert (Hr : forall j, (j < d)%nat -> NB (s0 * r ^ n)
      (er_mul (size (D n)) (er_sqrt (nth j (nth j (cov (D n)) []) (Fin 0))))).
  { intros j Hj. unfold r, slowest. rewrite pow_mult, <- Rmult_assoc. fold d. fold mu in HL. apply NB_mul.
    - apply Rmult_le_pos; [lra|apply pow_le; lra].
    - apply pow_le, Hsv.
    - exact HL.
    - rewrite <- sqrt_pow by exact Hv. apply NB_sqrt; [apply pow_le, Hv|]. apply HV, Hj. }
  split; intros Hst; rewrite Hst in Hc; cbn [In] in Hc;
    repeat (destruct Hc as [Hc|Hc]; [try discriminate Hc|]); try (destruct Hc; fail).
  - injection Hc as Hc. unfold Some_of in Hc. apply existsb_exists in Hc. destruct Hc as (j & Hj & Hc). apply in_seq in Hj.
    specialize (Hr j (proj2 Hj)).
    change (er_ltb (er_mul (er_mul (Fin (Rlit 2 (-1))) (size (D n))) (er_sqrt (nth j (nth j (cov (D n)) []) (Fin 0)))) (Fin (Rlit 1 (-10))) = true) in Hc.
    destruct (Rlt_le_dec (2 / 10 * s0 * r ^ n) (/ 10 ^ 10)) as [H|H]; [exact H|exfalso].
    assert (HX : NB (2 / 10 * s0 * r ^ n) (er_mul (er_mul (Fin (Rlit 2 (-1))) (size (D n))) (er_sqrt (nth j (nth j (cov (D n)) []) (Fin 0))))).
    { unfold r, slowest. rewrite pow_mult, <- !Rmult_assoc. fold d. apply NB_mul.
      - apply Rmult_le_pos; [lra|apply pow_le; lra].
      - apply pow_le, Hsv.
      - rewrite Rmult_assoc. apply NB_scale; [unfold Rlit; cbn; lra|exact HL].
      - rewrite <- sqrt_pow by exact Hv. apply NB_sqrt; [apply pow_le, Hv|]. apply HV. exact (proj2 Hj). }
    apply (NB_le (Rlit 1 (-10))) in HX; [unfold NB in HX; congruence|].
    eapply Rle_trans; [|exact H]. unfold Rlit. cbn. lra.
  - injection Hc as Hc. apply andb_true_iff in Hc. destruct Hc as [_ Hc].
    assert (HT : exists j, (j < d)%nat /\ top = er_sqrt (nth j (nth j (cov (D n)) []) (Fin 0))).
    { destruct Htop as [Hin _]; [fold d; destruct d; [lia|discriminate]|]. apply in_map_iff in Hin.
      destruct Hin as (j & Hj & Hin). apply in_seq in Hin. exists j. split; [exact (proj2 Hin)|]. symmetry. exact Hj. }
    destruct HT as (j & Hj & ->). specialize (Hr j Hj). rewrite Hsig in Hc.
    change (er_ltb (er_mul (size (D n)) (er_sqrt (nth j (nth j (cov (D n)) []) (Fin 0)))) (Fin (Rlit 1 (-11) * s0)) = true) in Hc.
    destruct (Rlt_le_dec (r ^ n) (/ 10 ^ 11)) as [H|H]; [exact H|exfalso].
    apply (NB_le (Rlit 1 (-11) * s0)) in Hr; [unfold NB in Hr; congruence|].
    rewrite (Rmult_comm s0). apply Rmult_le_compat_r; [lra|]. eapply Rle_trans; [|exact H]. unfold Rlit. cbn. lra.
Qed.

(** ** A bound without the constants *)
Lemma exp_le_inv' x y : exp x <= exp y -> x <= y.
Proof. intros [H|H]; [left; apply exp_lt_inv, H|right; apply exp_inv, H]. Qed.
Lemma exp_le x y : x <= y -> exp x <= exp y.
Proof. intros [H| ->]; [left; apply exp_increasing, H|lra]. Qed.
Lemma exp_INR n x : exp x ^ n = exp (INR n * x).
Proof.
  induction n as [|n IH]; [cbn; rewrite Rmult_0_l, exp_0; reflexivity|].
  rewrite S_INR, pow_succ_r, IH, <- exp_plus. f_equal. ring.
Qed.
Lemma sqrt_exp x : 0 <= x <= /2 -> exp (- x) <= sqrt (1 - x).
Proof.
  intros Hx. rewrite <- (sqrt_Rsqr (exp (- x))) by (left; apply exp_pos). apply sqrt_le_1_alt.
  unfold Rsqr. rewrite <- exp_plus. replace (- x + - x) with (- (2 * x)) by ring. rewrite exp_Ropp.
  assert (H : 1 + 2 * x <= exp (2 * x)).
  { destruct (Req_dec x 0) as [->|Hn]; [rewrite Rmult_0_r, exp_0; lra|left; apply exp_ineq1; lra]. }
  assert (Hp : 0 < exp (2 * x)) by apply exp_pos.
  apply Rmult_le_reg_r with (exp (2 * x)); [exact Hp|]. rewrite Rinv_l by lra.
  apply Rle_trans with ((1 - x) * (1 + 2 * x)); [nra|apply Rmult_le_compat_l; lra].
Qed.

Lemma div_le_div a b x y : 0 < b -> 0 < y -> a * y <= x * b -> a / b <= x / y.
Proof.
  intros Hb Hy H. apply Rmult_le_reg_r with b; [exact Hb|]. apply Rmult_le_reg_r with y; [exact Hy|].
  replace (a / b * b * y) with (a * y) by (field; lra). replace (x / y * b * y) with (x * b) by (field; lra). exact H.
Qed.
Lemma slowest_ge d mu : (1 <= d)%nat -> (1 <= mu)%nat -> (3 * mu <= (d + 1) * (d + 1))%nat ->
  exp (- ((5 * INR mu + 2) / (INR d + 9))) <= slowest d mu.
Proof.
  intros Hd Hmu H3. destruct (rate_facts d mu Hd Hmu) as (Hcs & Hc1 & Hcmu & Hv & Hdm). destruct (eff_ge mu Hmu) as [Hm1 Hm2].
  assert (Hn : 1 <= INR d) by (apply (le_INR 1), Hd). apply le_INR in H3. rewrite !mult_INR, plus_INR in H3.
  change (INR 1) with 1 in H3. replace (INR 3) with 3 in H3 by (cbn; lra).
  unfold slowest. set (m := eff mu) in *. set (x := INR d) in *. set (M := INR mu) in *.
  assert (Ha : r_cs x m / r_damp x m <= (M + 2) / (x + 9)).
  { apply Rle_trans with (r_cs x m / (1 + r_cs x m)).
    - apply Rmult_le_compat_l; [lra|]. apply Rinv_le_contravar; lra.
    - unfold r_cs. assert (Hq : (m + 2) / (x + m + 5) / (1 + (m + 2) / (x + m + 5)) = (m + 2) / (x + 2 * m + 7)) by (field; lra).
      rewrite Hq. apply div_le_div; [lra|lra|]. nra. }
  assert (Hb : r_c1 x m + r_cmu x m <= 2 * m / ((x + 13/10) * (x + 13/10) + m)).
  { assert (Hmu' : r_cmu x m <= 2 * (m - 1) / ((x + 13/10) * (x + 13/10) + m)).
    { unfold r_cmu. eapply Rle_trans; [apply Rmin_r|]. apply div_le_div; [nra|nra|].
      assert (Hi : 1 / m <= 1) by (apply Rmult_le_reg_r with m; [lra|]; unfold Rdiv; rewrite Rmult_assoc, Rinv_l by lra; lra).
      apply Rmult_le_compat; [|nra| |nra].
      - replace (2 * (m - 2 + 1 / m)) with (2 * ((m - 1) * (m - 1) / m)) by (field; lra).
        apply Rmult_le_pos; [lra|]. apply Rmult_le_pos; [nra|left; apply Rinv_0_lt_compat; lra].
      - lra. }
    unfold r_c1 at 1. replace (2 * m / ((x + 13/10) * (x + 13/10) + m))
      with (2 / ((x + 13/10) * (x + 13/10) + m) + 2 * (m - 1) / ((x + 13/10) * (x + 13/10) + m)) by (field; nra).
    lra. }
  assert (Hh : 2 * m / ((x + 13/10) * (x + 13/10) + m) <= /2).
  { replace (/2) with (1 / 2) by lra. apply div_le_div; [nra|lra|]. nra. }
  assert (Hg : 2 * m / ((x + 13/10) * (x + 13/10) + m) <= 4 * M / (x + 9)).
  { apply div_le_div; [nra|lra|]. nra. }
  apply Rle_trans with (exp (- (r_cs x m / r_damp x m)) * exp (- (r_c1 x m + r_cmu x m))).
  - rewrite <- exp_plus. apply exp_le.
    replace (- ((5 * M + 2) / (x + 9))) with (- ((M + 2) / (x + 9)) + - (4 * M / (x + 9))) by (field; lra). lra.
  - unfold slow_size. apply Rmult_le_compat_l; [left; apply exp_pos|].
    unfold slow_var. replace (1 - r_c1 x m - r_cmu x m) with (1 - (r_c1 x m + r_cmu x m)) by ring. apply sqrt_exp. lra.
Qed.

Lemma exp_3 n : exp (INR n) <= 3 ^ n.
Proof.
  replace (INR n) with (INR n * 1) by ring. rewrite <- exp_INR. apply pow_incr. split; [left; apply exp_pos|apply exp_le_3].
Qed.
(** exp (-t n) below c^-1 although exp N < c: then t n > N. *)
Lemma many t n N c r : 0 < c -> 3 ^ N <= c -> exp (- t) <= r -> r ^ n < / c -> INR N < t * INR n.
Proof.
  intros Hc HN Hr H. apply Rnot_le_lt. intros Hle.
  assert (H1 : exp (- INR N) <= r ^ n).
  { apply Rle_trans with (exp (- t) ^ n); [|apply pow_incr; split; [left; apply exp_pos|exact Hr]].
    rewrite exp_INR. apply exp_le. lra. }
  assert (H2 : / c <= exp (- INR N)).
  { rewrite exp_Ropp. apply Rinv_le_contravar; [apply exp_pos|]. pose proof (exp_3 N). lra. }
  lra.
Qed.

(** C74: the number of generations before these statuses grows with the dimension: it is more than
    23 (d + 9) / (5 mu + 2) for -8, and more than 17 (d + 9) / (5 mu + 2) for -3 unless the first
    step size is below 1/10. *)
Theorem C74_generations {E : Env ENum} (HE : EnvOK) (HEig : EighShape) (HEmp : EmptyShape) A rows k s0 w a0 res st' :
  a_bounds (caa A) = D2 2 rows -> a_backend (caa A) <> Some "mpi"%string ->
  @ntrunc ENum (caa_muperc A * nZ (a_popsize (caa A)))%num = Some k -> (1 <= k <= a_popsize (caa A))%Z ->
  (1 <= length rows)%nat -> caa_sigma A = Fin s0 -> 0 < s0 ->
  let d := Z.of_nat (length rows) in
  (3 * k <= (d + 1) * (d + 1))%Z ->
  exec (cmaes_minimize A) w a0 = (inl res, st') ->
  (r_status res = (-8)%Z -> (23 * (d + 9) < (5 * k + 2) * r_nit res)%Z) /\
  (r_status res = (-3)%Z -> 1 / 10 <= s0 -> (17 * (d + 9) < (5 * k + 2) * r_nit res)%Z).
Proof.
  intros Hb Hm Hk Hkp Hd Hsig Hs0 d H3 Hx.
  destruct (C74_cmaes HE HEig HEmp A rows k s0 w a0 res st' Hb Hm Hk Hkp Hd Hsig Hs0 Hx) as (Hr & H3' & H8).
  pose proof (C01_nit_cma (CallCMA A) w a0 res st' HE Hx) as Hn. unfold cma_args in Hn. cbn [cma_cargs] in Hn.
  set (r := slowest (length rows) (Z.to_nat k)) in *.
  assert (Hge : exp (- ((5 * IZR k + 2) / (IZR d + 9))) <= r).
  { unfold r. replace (IZR k) with (INR (Z.to_nat k)) by (rewrite INR_IZR_INZ, Z2Nat.id by lia; reflexivity).
    unfold d. rewrite <- INR_IZR_INZ. apply slowest_ge; [exact Hd|lia|]. apply Nat2Z.inj_le.
    rewrite !Nat2Z.inj_mul, Nat2Z.inj_add, Z2Nat.id by lia. exact H3. }
  assert (Ed : 1 <= IZR d) by (unfold d; rewrite <- INR_IZR_INZ; apply (le_INR 1), Hd).
  assert (En : INR (Z.to_nat (r_nit res)) = IZR (r_nit res)) by (rewrite INR_IZR_INZ, Z2Nat.id by lia; reflexivity).
  assert (HG : forall N, INR N < (5 * IZR k + 2) / (IZR d + 9) * INR (Z.to_nat (r_nit res)) ->
    (Z.of_nat N * (d + 9) < (5 * k + 2) * r_nit res)%Z).
  { intros N HN. apply lt_IZR. rewrite !mult_IZR, !plus_IZR, !mult_IZR. rewrite En, INR_IZR_INZ in HN.
    apply Rmult_lt_reg_r with (/ (IZR d + 9)); [apply Rinv_0_lt_compat; lra|].
    replace (IZR (Z.of_nat N) * (IZR d + 9) * / (IZR d + 9)) with (IZR (Z.of_nat N)) by (field; lra).
    eapply Rlt_le_trans; [exact HN|]. right. unfold Rdiv. ring. }
  split.
  - intros Hst. specialize (H8 Hst). apply (HG 23%nat). eapply many; [| |exact Hge|exact H8]; cbn; lra.
  - intros Hst Hs. specialize (H3' Hst). apply (HG 17%nat). apply (many _ _ _ (2 * 10 ^ 8) r); [cbn; lra|cbn; lra|exact Hge|].
    apply Rmult_lt_reg_l with (2 / 10 * (1 / 10)); [lra|].
    apply Rle_lt_trans with (2 / 10 * s0 * r ^ Z.to_nat (r_nit res)).
    + apply Rmult_le_compat_r; [apply pow_le; lra|lra].
    + eapply Rlt_le_trans; [exact H3'|]. right. cbn. field.
Qed.
