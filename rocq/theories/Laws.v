(** The arithmetic laws some theorems ask for, proved for exact arithmetic with special values
    ([ENum]) and for binary64 ([FNum]). *)
From Coq Require Import Reals Lra Floats.
From Flocq Require Core.Raux.
From Verif Require Import Base Num NumR NumE NumF FBridge FLaws Env Common CPSO HistBest.
Open Scope R_scope.

(** [exp] of the C library: NaN or not negative. *)
Definition ExpOK (F : FloatFuns) : Prop := forall x, PrimFloat.ltb (f_exp F x) 0 = false.

(** ** The restart formula of cpso never asks for all particles *)
Lemma Ztrunc_le r z : 0 <= r -> r <= IZR z -> (Raux.Ztrunc r <= z)%Z.
Proof.
  intros H0 H. rewrite Raux.Ztrunc_floor by exact H0. apply le_IZR.
  apply Rle_trans with r; [apply Raux.Zfloor_lb|exact H].
Qed.

Lemma nltb_zero_leb a : er_ltb a (Fin 0) = false -> a = NaN \/ er_leb (Fin 0) a = true.
Proof. destruct a; cbn; auto; try discriminate. right. rb. lra. Qed.

Theorem FNum_RestartLaw F n : ExpOK F -> (1 <= n)%nat -> (Z.of_nat n <= 2 ^ 53)%Z -> @RestartLaw (FNum F) n.
Proof.
  intros HE Hn1 Hn it mx g nw. unfold restart_count.
  cbn [num_arith ntrunc FNum FArith nlit nexp ndiv nadd nsub nmul T n0 n1 nZ nN].
  unfold nN, n1, nZ. cbn [FArith nlit nexp ndiv nadd nsub nmul T num_arith FNum f_lit].
  set (a := f_exp F _). 
  assert (Ha : PrimFloat.ltb a 0 = false) by apply HE. clearbody a. clear HE.
  intros Ht. destruct (sf_trunc_some _ _ Ht) as [r Hr].
  pose proof (sf_trunc_spec _ _ _ Hr Ht) as ->.
  assert (E1 : fe (f_ofZ 1) = Fin 1) by (apply fe_ofZ; lia).
  assert (En : fe (f_ofZ (Z.of_nat n)) = Fin (IZR (Z.of_nat n))) by (apply fe_ofZ; lia).
  assert (Enm : fe (f_ofZ (Z.of_nat n) - f_ofZ 1)%float = Fin (IZR (Z.of_nat n - 1))).
  { rewrite fe_sub, En, E1. cbn [er_sub]. rewrite <- minus_IZR. unfold er_rnd.
    rewrite rnd_fmt by (apply fmt_Z; lia).
    destruct (Rlt_dec _ _) as [_|q]; [reflexivity|]. exfalso; apply q, fmax_big. lia. }
  set (den := (f_ofZ 1 + a)%float) in *. set (num := (f_ofZ (Z.of_nat n) - f_ofZ 1)%float) in *.
  assert (Hd : fe den = NaN \/ er_leb (Fin 1) (fe den) = true).
  { unfold den. rewrite fe_add, E1. rewrite fe_ltb in Ha.
    change (fe 0%float) with (Fin 0) in Ha. apply nltb_zero_leb in Ha.
    destruct Ha as [Ha|Ha]; [left; rewrite Ha; reflexivity|].
    assert (Hs : er_leb (Fin 1) (er_add (Fin 1) (fe a)) = true).
    { destruct (fe a); try discriminate; cbn in *; auto. rb. lra. }
    right. apply er_rnd_mono in Hs. rewrite <- E1 in Hs at 1. rewrite er_rnd_fe, E1 in Hs. exact Hs. }
  assert (Hn0 : 0 <= IZR (Z.of_nat n - 1)) by (apply (IZR_le 0); lia).
  destruct Hd as [Hd|Hd].
  { exfalso. rewrite fe_div in Hr by congruence. rewrite Hd, Enm in Hr. discriminate. }
  assert (Hnz : fe den <> Fin 0) by (intros E; rewrite E in Hd; cbn in Hd; rb; lra).
  rewrite fe_div in Hr by exact Hnz. rewrite Enm in Hr.
  set (q := er_div (Fin (IZR (Z.of_nat n - 1))) (fe den)) in *.
  assert (Hq : er_leb (Fin 0) q = true /\ er_leb q (Fin (IZR (Z.of_nat n - 1))) = true).
  { unfold q. destruct (fe den) as [y| | |]; try discriminate; cbn in Hd |- *; rb.
    - destruct (Req_EM_T y 0); [lra|]. cbn. rb. split.
      + apply Rmult_le_pos; [exact Hn0|]. apply Rlt_le, Rinv_0_lt_compat. lra.
      + apply Rmult_le_reg_r with y; [lra|]. unfold Rdiv. rewrite Rmult_assoc, Rinv_l by lra. nra.
    - lra. }
  destruct Hq as [Hq0 Hq1]. apply er_rnd_mono in Hq0. apply er_rnd_mono in Hq1.
  rewrite <- Enm in Hq1 at 1. rewrite er_rnd_fe, Enm in Hq1.
  change (Fin 0) with (fe 0%float) in Hq0. rewrite er_rnd_fe in Hq0. change (fe 0%float) with (Fin 0) in Hq0.
  rewrite Hr in Hq0, Hq1. cbn in Hq0, Hq1. rb. apply Ztrunc_le; assumption.
Qed.

Lemma Rfloor_le r z : r <= IZR z -> (Rfloor r <= z)%Z.
Proof.
  intros H. apply le_IZR. destruct (R_Ifp.base_Int_part r) as [H1 _]. unfold Rfloor. lra.
Qed.

Theorem ENum_RestartLaw n : (1 <= n)%nat -> @RestartLaw ENum n.
Proof.
  intros Hn it mx g nw. unfold restart_count.
  cbn [num_arith ntrunc ENum EArith]. unfold nN, n1, nZ.
  cbn [EArith nlit nexp ndiv nadd nsub nmul T Rlit er_sub].
  set (a := er_exp _).
  assert (Ha : a = NaN \/ a = PInf \/ exists y, a = Fin y /\ 0 <= y).
  { unfold a. match goal with |- context [er_exp ?e] => destruct e end; cbn; eauto 6.
    - right; right. eexists. split; [reflexivity|]. apply Rlt_le, exp_pos.
    - right; right. exists 0. split; [reflexivity|lra]. }
  clearbody a.
  assert (Hn0 : 0 <= IZR (Z.of_nat n) - 1) by (rewrite <- minus_IZR; apply (IZR_le 0); lia).
  destruct Ha as [->|[->|(y & -> & Hy)]]; cbn; [discriminate| |].
  - destruct (Rlt_dec 0 0); [lra|]. intros H; injection H as <-.
    apply Rfloor_le. rewrite minus_IZR. exact Hn0.
  - destruct (Req_EM_T (1 + y) 0); [lra|]. cbn.
    assert (Hq : 0 <= (IZR (Z.of_nat n) - 1) / (1 + y)).
    { apply Rmult_le_pos; [exact Hn0|]. apply Rlt_le, Rinv_0_lt_compat. lra. }
    destruct (Rlt_dec _ 0); [lra|]. intros H; injection H as <-.
    apply Rfloor_le. rewrite minus_IZR.
    apply Rmult_le_reg_r with (1 + y); [lra|]. unfold Rdiv. rewrite Rmult_assoc, Rinv_l by lra. nra.
Qed.

(** ** A window containing 0: max - min bounds the distance of both ends to 0 *)
Record SubLaw (A : Arith) : Prop := {
  sl_nan_l : forall m M : T, nleb M M = false -> nleb (nsub M m) (nsub M m) = false;
  sl_nan_r : forall m M : T, nleb m m = false -> nleb (nsub M m) (nsub M m) = false;
  sl_zero : nleb n0 n0 = true;
  sl_max : forall m M : T, nleb m n0 = true -> nleb n0 M = true -> nleb M (nsub M m) = true;
  sl_min : forall m M : T, nleb m n0 = true -> nleb n0 M = true -> nleb (nabs m) (nsub M m) = true;
  (* |x| lies between the absolute values of the ends *)
  sl_abs : forall m M x : T, nleb m n0 = true -> nleb n0 M = true -> nleb m x = true -> nleb x M = true ->
    nleb (nabs x) M = true \/ nleb (nabs x) (nabs m) = true }.

Theorem ENum_SubLaw : SubLaw EArith.
Proof.
  constructor; cbn.
  - intros [m| | |] [M| | |]; cbn; try discriminate; auto; intros; rb; lra.
  - intros [m| | |] [M| | |]; cbn; try discriminate; auto; intros; rb; lra.
  - rb; lra.
  - intros [m| | |] [M| | |]; cbn; try discriminate; auto; intros; rb. lra.
  - intros [m| | |] [M| | |]; cbn; try discriminate; auto; intros; rb. rewrite Rabs_left1 by lra. lra.
  - intros [m| | |] [M| | |] [x| | |]; cbn; try discriminate; auto; intros; rb.
    unfold Rabs. destruct (Rcase_abs x), (Rcase_abs m); try (left; lra); right; lra.
Qed.
Theorem FNum_SubLaw F : SubLaw (FArith F).
Proof.
  assert (E0 : fe 0%float = Fin 0) by reflexivity.
  pose proof ENum_SubLaw as [L1 L2 L3 L4 L5 L6]. cbn in L1, L2, L3, L4, L5, L6.
  constructor; unfold n0, nZ; cbn [FArith nleb nsub nabs nlit T]; change (f_lit 0 0) with 0%float;
    try (intros m M); rewrite ?fe_leb, ?fe_sub, ?E0.
  - intros H. destruct (fe M); cbn in H; rb; try discriminate; [lra|].
    destruct (fe m); reflexivity.
  - intros H. destruct (fe m); cbn in H; rb; try discriminate; [lra|].
    destruct (fe M); reflexivity.
  - cbn. rb. lra.
  - intros Hm HM. specialize (L4 _ _ Hm HM). apply er_rnd_mono in L4. rewrite er_rnd_fe in L4. exact L4.
  - intros Hm HM. specialize (L5 _ _ Hm HM). rewrite <- fe_abs in *. apply er_rnd_mono in L5.
    rewrite er_rnd_fe in L5. exact L5.
  - intros x. rewrite ?fe_leb, ?fe_abs, ?E0. apply L6.
Qed.

(** ** The window of cmaes/vdcma holds at least ten generations *)
Definition IlimLaw {N : Num} (d : nat) (p : Z) : Prop := forall n,
  ntrunc (nadd (nZ 10) (ndiv (nmul (nZ 30) (nN d)) (nZ p))) = Some n -> (10 <= n)%Z.

Theorem ENum_IlimLaw d p : (1 <= p)%Z -> @IlimLaw ENum d p.
Proof.
  intros Hp n. cbn. assert (H0 : 1 <= IZR p) by (apply (IZR_le 1), Hp).
  destruct (Req_EM_T (IZR p) 0); [lra|]. cbn.
  assert (Hd : 0 <= IZR (Z.of_nat d)) by (apply (IZR_le 0); lia).
  assert (Hq : 0 <= 30 * IZR (Z.of_nat d) / IZR p).
  { apply Rmult_le_pos; [lra|]. apply Rlt_le, Rinv_0_lt_compat. lra. }
  destruct (Rlt_dec _ 0); [lra|]. intros H; injection H as <-.
  unfold Rfloor. apply Z.lt_succ_r, lt_IZR. rewrite succ_IZR.
  match goal with |- context [Int_part ?r] => destruct (R_Ifp.base_Int_part r) as [_ H1] end. lra.
Qed.
Theorem FNum_IlimLaw F d p : (1 <= p)%Z -> (p <= 2 ^ 53)%Z -> (Z.of_nat d <= 2 ^ 53)%Z ->
  @IlimLaw (FNum F) d p.
Proof.
  intros Hp Hp2 Hd n. unfold nN, nZ.
  cbn [FNum FArith num_arith ntrunc nadd ndiv nmul nlit f_lit T].
  intros Ht. destruct (sf_trunc_some _ _ Ht) as [r Hr].
  pose proof (sf_trunc_spec _ _ _ Hr Ht) as ->.
  assert (E10 : fe (f_ofZ 10) = Fin 10) by (apply fe_ofZ; lia).
  assert (E30 : fe (f_ofZ 30) = Fin 30) by (apply fe_ofZ; lia).
  assert (Ed : fe (f_ofZ (Z.of_nat d)) = Fin (IZR (Z.of_nat d))) by (apply fe_ofZ; lia).
  assert (Ep : fe (f_ofZ p) = Fin (IZR p)) by (apply fe_ofZ; lia).
  assert (H0 : 1 <= IZR p) by (apply (IZR_le 1), Hp).
  assert (Hd0 : 0 <= IZR (Z.of_nat d)) by (apply (IZR_le 0); lia).
  set (m := (f_ofZ 30 * f_ofZ (Z.of_nat d))%float) in *.
  assert (Z0 : er_rnd (Fin 0) = Fin 0) by (change (Fin 0) with (fe 0%float); apply er_rnd_fe).
  assert (Hm : er_leb (Fin 0) (fe m) = true).
  { unfold m. rewrite fe_mul, E30, Ed, <- Z0. apply er_rnd_mono. cbn. rb. lra. }
  set (q := (m / f_ofZ p)%float) in *.
  assert (Hq : er_leb (Fin 0) (fe q) = true).
  { unfold q. rewrite fe_div by (rewrite Ep; intros HH; injection HH; lra).
    rewrite Ep, <- Z0. apply er_rnd_mono. destruct (fe m) as [y| | |]; try discriminate; cbn.
    - destruct (Req_EM_T (IZR p) 0); [lra|]. cbn in Hm |- *. rb.
      apply Rmult_le_pos; [lra|]. apply Rlt_le, Rinv_0_lt_compat. lra.
    - unfold er_sgn. destruct (Rlt_dec 0 (IZR p)); [reflexivity|lra]. }
  assert (H10 : er_leb (Fin 10) (Fin r) = true).
  { rewrite <- Hr, fe_add, E10. rewrite <- E10, <- (er_rnd_fe (f_ofZ 10)) at 1. apply er_rnd_mono.
    rewrite E10. destruct (fe q); try discriminate; cbn in Hq |- *; auto. rb. lra. }
  cbn in H10. rb. rewrite Raux.Ztrunc_floor by lra. apply Raux.Zfloor_lub. exact H10.
Qed.

(** ** A uniform draw stays between its bounds *)
Definition UniformLaw {A : Arith} (lo hi : T) : Prop := forall u : T,
  nleb n0 u = true -> nltb u n1 = true ->
  nleb lo (nadd lo (nmul (nsub hi lo) u)) = true /\
  nleb (nadd lo (nmul (nsub hi lo) u)) hi = true.

Theorem ENum_UniformLaw lo hi : lo <= hi -> @UniformLaw EArith (Fin lo) (Fin hi).
Proof.
  intros H [u| | |]; cbn; try discriminate. intros; rb. nra.
Qed.

Definition ffinite (x : float) : Prop := exists r, fe x = Fin r.
Theorem FNum_UniformLaw F lo hi : ffinite lo -> ffinite hi -> ffinite (hi - lo)%float ->
  PrimFloat.leb lo hi = true -> @UniformLaw (FArith F) lo hi.
Proof.
  intros [rl Hl] [rh Hh] Hd Hle u. unfold n0, n1, nZ. cbn [FArith nleb nltb nsub nabs nlit nadd nmul].
  change (f_lit 0 0) with 0%float. change (f_lit 1 0) with 1%float.
  rewrite fe_leb, Hl, Hh in Hle. cbn in Hle. rb.
  apply f_uniform with (rl := rl) (rh := rh); auto.
Qed.
