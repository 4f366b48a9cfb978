(** C74 for vdcma: how fast the step size can change, in exact arithmetic. *)
From Coq Require Import Reals Lra Lia.
From Verif Require Import Base Num NumR NumE Env Common DE CPSO NA Mat CMAES VDCMA Hoare EvalRules
  Gen Steps Hist Runs CmaRun Best Inst HistFacts HistBest PropPop Laws Valid Weights VdReal CmReal VdRun Trial Restart Flight Adapt VAdapt PropCma Reasons Slow.
Open Scope R_scope.

Definition Within (d : nat) (s0 : R) (n : nat) (S : @VDist ENum) : Prop :=
  exists s t, v_size S = Fin s /\ succ S = Fin t /\ -1 <= t <= 1 /\
    s0 * exp (- (INR (n - 1) / sqrt (INR d))) <= s <= s0 * exp (INR (n - 1) / sqrt (INR d)).

Lemma VRates_exist d mu : exists mueff cc c1 cmu, @VRates ENum d mu mueff cc c1 cmu.
Proof. do 4 eexists. constructor; reflexivity. Qed.
Lemma nN_ENum d : @nN (@num_arith ENum) d = Fin (INR d).
Proof. apply nN_E. Qed.

Lemma Within_step {E : Env ENum} d mu p Y X K S S' s0 n : (1 <= d)%nat -> 0 <= s0 ->
  @VAdapted ENum d mu p Y X K S S' -> (moved S = true -> (1 <= n)%nat) -> Within d s0 n S -> Within d s0 (Datatypes.S n) S'.
Proof.
  intros Hd Hs0 HA Hmv (s & t & Hs & Ht & Ht1 & Hb). destruct (VRates_exist d mu) as (mueff & cc & c1 & cmu & HR).
  pose proof (va_law _ _ _ _ _ _ _ _ HA _ _ _ _ HR) as H. cbv zeta in H. destruct H as (_ & _ & H & _).
  assert (Hd' : 1 <= INR d) by (apply (le_INR 1), Hd).
  assert (Hq : 0 < sqrt (INR d)) by (apply sqrt_lt_R0; lra).
  set (q := sqrt (INR d)) in *.
  assert (Hmono : INR (n - 1) / q <= INR (Datatypes.S n - 1) / q).
  { apply Rmult_le_compat_r; [left; apply Rinv_0_lt_compat, Hq|]. apply le_INR. lia. }
  destruct (moved S) eqn:Hm.
  - destruct H as (a & b & Ha & HKa & Hb' & HKb & Hsu & Hsz).
    assert (Hab : a <> b) by (intros ->; rewrite HKa in HKb; discriminate).
    assert (Hp : 2 <= INR p) by (replace 2 with (INR 2) by (cbn; lra); apply le_INR; lia).
    assert (Hr : er_div (Fin (Rlit (Z.of_nat b - Z.of_nat a) 0)) (er_sub (@nN (@num_arith ENum) p) (Fin (Rlit 1 0))) = Fin ((INR b - INR a) / (INR p - 1))).
    { rewrite nN_ENum. cbn [er_sub]. unfold Rlit. rewrite minus_IZR, <- !INR_IZR_INZ. apply div_fin. lra. }
    set (r := (INR b - INR a) / (INR p - 1)) in *.
    assert (Hr1 : -1 <= r <= 1).
    { assert (INR b <= INR p - 1) by (replace 1 with (INR 1) by reflexivity; rewrite <- minus_INR by lia; apply le_INR; lia).
      assert (INR a <= INR p - 1) by (replace 1 with (INR 1) by reflexivity; rewrite <- minus_INR by lia; apply le_INR; lia).
      pose proof (pos_INR a). pose proof (pos_INR b).
      split; apply Rmult_le_reg_r with (INR p - 1); try lra; unfold r, Rdiv; rewrite Rmult_assoc, Rinv_l by lra; lra. }
    assert (Hsu' : succ S' = Fin (t + 3 / 10 * (r - t))).
    { rewrite Hsu, Ht. change (er_add (Fin t) (er_mul (Fin (Rlit 3 (-1)))
        (er_sub (er_div (Fin (Rlit (Z.of_nat b - Z.of_nat a) 0)) (er_sub (@nN (@num_arith ENum) p) (Fin (Rlit 1 0)))) (Fin t))) = Fin (t + 3 / 10 * (r - t))).
      rewrite Hr. reflexivity. }
    set (t' := t + 3 / 10 * (r - t)) in *.
    assert (Ht' : -1 <= t' <= 1) by (unfold t'; lra).
    assert (Hsz' : v_size S' = Fin (s * exp (t' / q))).
    { rewrite Hsz, Hs, Hsu'. change (er_mul (Fin s) (er_exp (er_div (Fin t') (er_sqrt (@nN (@num_arith ENum) d)))) = Fin (s * exp (t' / q))).
      rewrite nN_ENum, sqrt_fin by lra. fold q. rewrite div_fin by lra. reflexivity. }
    specialize (Hmv eq_refl).
    exists (s * exp (t' / q)), t'. split; [exact Hsz'|]. split; [exact Hsu'|]. split; [exact Ht'|].
    assert (HN : INR (Datatypes.S n - 1) = INR (n - 1) + 1) by (rewrite <- S_INR; f_equal; lia).
    rewrite HN. fold q.
    assert (Hlo : exp (- (1 / q)) <= exp (t' / q)).
    { apply exp_le. apply Rmult_le_reg_r with q; [exact Hq|]. unfold Rdiv. rewrite Ropp_mult_distr_l, !Rmult_assoc, Rinv_l by lra. lra. }
    assert (Hhi : exp (t' / q) <= exp (1 / q)).
    { apply exp_le. apply Rmult_le_reg_r with q; [exact Hq|]. unfold Rdiv. rewrite !Rmult_assoc, Rinv_l by lra. lra. }
    pose proof (exp_pos (- (INR (n - 1) / q))). pose proof (exp_pos (INR (n - 1) / q)). pose proof (exp_pos (t' / q)). pose proof (exp_pos (- (1 / q))).
    assert (Hs1 : 0 <= s) by (eapply Rle_trans; [|apply Hb]; apply Rmult_le_pos; lra).
    split.
    + replace (- ((INR (n - 1) + 1) / q)) with (- (INR (n - 1) / q) + - (1 / q)) by (field; lra).
      rewrite exp_plus, <- Rmult_assoc. apply Rmult_le_compat; [apply Rmult_le_pos; lra|lra|apply Hb|exact Hlo].
    + replace ((INR (n - 1) + 1) / q) with (INR (n - 1) / q + 1 / q) by (field; lra).
      rewrite exp_plus, <- Rmult_assoc. apply Rmult_le_compat; [exact Hs1|lra|apply Hb|exact Hhi].
  - destruct H as [Hsu Hsz]. exists s, t. rewrite Hsz, Hsu. split; [exact Hs|]. split; [exact Ht|]. split; [exact Ht1|].
    fold q. split.
    + eapply Rle_trans; [|apply Hb]. apply Rmult_le_compat_l; [exact Hs0|]. apply exp_le. lra.
    + eapply Rle_trans; [apply Hb|]. apply Rmult_le_compat_l; [exact Hs0|]. apply exp_le. lra.
Qed.

(** C74: in every generation of a run of vdcma the step size is a number, and it changes by at most a
    factor exp (1 / sqrt d) per generation (not at all in the first). *)
Theorem C74_vdcma {E : Env ENum} (HE : EnvOK) (HEmp : EmptyShape) A rows k s0 w a0 res st' :
  a_bounds (caa A) = D2 2 rows -> a_backend (caa A) <> Some "mpi"%string ->
  @ntrunc ENum (caa_muperc A * nZ (a_popsize (caa A)))%num = Some k -> (k <= a_popsize (caa A))%Z ->
  (1 <= length rows)%nat -> caa_sigma A = Fin s0 -> 0 < s0 ->
  exec (vdcma_minimize A) w a0 = (inl res, st') ->
  exists D F h,
    @VStart ENum E A rows (D 0%nat) /\
    @Course ENum _ (@VdGen ENum A (length rows) (Z.to_nat k) (Z.to_nat (a_popsize (caa A)))) D F h
           (Z.to_nat (r_nit res)) (Some (r_status res)) /\
    forall i, (i <= Z.to_nat (r_nit res))%nat -> exists s, v_size (D i) = Fin s /\
      s0 * exp (- (INR (i - 1) / sqrt (INR (length rows)))) <= s <= s0 * exp (INR (i - 1) / sqrt (INR (length rows))).
Proof.
  intros Hb Hm Hk Hkp Hd Hsig Hs0 Hx.
  destruct (@C70_vdcma ENum E HE HEmp A rows k w a0 res st' Hb Hm Hk Hkp Hx) as (D & F & h & HSt & HC & _).
  exists D, F, h. split; [exact HSt|]. split; [exact HC|].
  set (n := Z.to_nat (r_nit res)) in *.
  assert (HW : forall i, (i <= n)%nat -> Within (length rows) s0 i (D i) /\ (moved (D i) = true -> (1 <= i)%nat)).
  { destruct HC as [_ HC]. induction i as [|i IH]; intros Hi.
    - split; [|rewrite (vt_moved _ _ _ HSt); discriminate]. exists s0, 0. rewrite (vt_size _ _ _ HSt), (vt_succ _ _ _ HSt), Hsig.
      split; [reflexivity|]. split; [reflexivity|]. split; [lra|]. cbn [Nat.sub INR]. unfold Rdiv. rewrite Rmult_0_l, Ropp_0, exp_0. lra.
    - destruct (IH ltac:(lia)) as [H1 H2]. destruct (HC i ltac:(lia)) as [(Y & X & K & _ & _ & _ & HA) _].
      split; [|lia]. eapply Within_step; [exact Hd|lra|exact HA|exact H2|exact H1]. }
  intros i Hi. destruct (HW i Hi) as [(s & t & H1 & _ & _ & H2) _]. eauto.
Qed.
