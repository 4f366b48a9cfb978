(** Facts of binary64 arithmetic used by the feasibility and restart theorems. *)
From Coq Require Import Reals Lra Floats Uint63.
From Flocq Require Import Core BinarySingleNaN Plus_error.
From Flocq Require IEEE754.PrimFloat.
From Verif Require Import Base Num NumR NumE NumF FBridge.
Open Scope R_scope.

#[local] Instance hprec : Prec_gt_0 53 := eq_refl.
#[local] Instance hmax : Prec_lt_emax 53 1024 := eq_refl.

Notation fmt := (generic_format radix2 fexp64).

Lemma rnd_fmt r : fmt r -> rnd r = r.
Proof. intros. apply round_generic; [apply valid_rnd_N|exact H]. Qed.
Lemma fmt_rnd r : fmt (rnd r).
Proof. apply generic_format_round; [exact vexp64|apply valid_rnd_N]. Qed.
Lemma fe_fmt x r : fe x = Fin r -> fmt r /\ Rabs r < fmax.
Proof.
  intros H. destruct (fe_Fin_inv _ _ H) as [_ <-]. split; [apply generic_format_B2R|apply B2R_lt].
Qed.

(** ** Integers *)
Lemma fmt_Z z : (Z.abs z <= 2 ^ 53)%Z -> fmt (IZR z).
Proof.
  intros Hz. destruct (Z.eq_dec (Z.abs z) (2 ^ 53)) as [He|He].
  - assert (H : IZR (Z.abs z) = bpow radix2 53) by (rewrite He; reflexivity).
    rewrite abs_IZR in H. unfold Rabs in H. destruct (Rcase_abs (IZR z)).
    + replace (IZR z) with (- bpow radix2 53) by lra. apply generic_format_opp.
      apply generic_format_bpow. vm_compute. discriminate.
    + rewrite H. apply generic_format_bpow. vm_compute. discriminate.
  - replace (IZR z) with (F2R (Float radix2 z 0)) by (unfold F2R; cbn; lra).
    apply generic_format_F2R. intros Hz0. unfold cexp.
    assert (Hm : (mag radix2 (F2R (Float radix2 z 0)) <= 53)%Z).
    { apply mag_le_bpow; [apply F2R_neq_0; exact Hz0|].
      unfold F2R; cbn [Fnum Fexp bpow]. rewrite Rmult_1_r, <- abs_IZR.
      apply (IZR_lt _ (2 ^ 53)). lia. }
    unfold fexp64, SpecFloat.fexp, SpecFloat.emin. lia.
Qed.

Lemma fmax_big z : (Z.abs z <= 2 ^ 64)%Z -> Rabs (IZR z) < fmax.
Proof.
  intros H. rewrite <- abs_IZR, <- fmax_eq. apply Rle_lt_trans with (bpow radix2 64).
  - apply (IZR_le _ (2 ^ 64)), H.
  - apply bpow_lt. reflexivity.
Qed.

Lemma fe_of_uint i : (Uint63.to_Z i <= 2 ^ 53)%Z -> fe (PrimFloat.of_uint63 i) = Fin (IZR (Uint63.to_Z i)).
Proof.
  intros Hi. unfold fe.
  assert (E : f2b (PrimFloat.of_uint63 i) = binary_normalize 53 1024 hprec hmax mode_NE (Uint63.to_Z i) 0 false)
    by exact (Flocq.IEEE754.PrimFloat.of_int63_equiv i).
  rewrite E.
  pose proof (binary_normalize_correct 53 1024 hprec hmax mode_NE (Uint63.to_Z i) 0 false) as H.
  cbv zeta in H.
  pose proof (Uint63.to_Z_bounded i) as [Hb _].
  assert (HF : F2R (Float radix2 (Uint63.to_Z i) 0) = IZR (Uint63.to_Z i))
    by (unfold F2R; cbn; lra).
  rewrite HF in H.
  rewrite (er_rnd_intro _ (IZR (Uint63.to_Z i)) false).
  - unfold er_rnd. rewrite rnd_fmt by (apply fmt_Z; lia).
    destruct (Rlt_dec _ _) as [_|n]; [reflexivity|]. exfalso; apply n, fmax_big. lia.
  - revert H. rewrite fmax_eq. fold (rnd (IZR (Uint63.to_Z i))).
    change (round radix2 (SpecFloat.fexp 53 1024) (round_mode mode_NE) (IZR (to_Z i))) with (rnd (IZR (to_Z i))).
    rewrite Rlt_bool_true.
    + intros (H1 & H2 & _). auto.
    + rewrite rnd_fmt by (apply fmt_Z; lia). apply fmax_big. lia.
Qed.

Lemma fe_ofZ z : (Z.abs z <= 2 ^ 53)%Z -> fe (f_ofZ z) = Fin (IZR z).
Proof.
  intros Hz. destruct z as [|p|p]; unfold f_ofZ.
  - reflexivity.
  - rewrite fe_of_uint; rewrite Uint63.of_Z_spec, Z.mod_small; [reflexivity| |lia|].
    all: change wB with (2 ^ 63)%Z; lia.
  - rewrite fe_opp, fe_of_uint; rewrite Uint63.of_Z_spec, Z.mod_small; [reflexivity| |lia|].
    all: change wB with (2 ^ 63)%Z; lia.
Qed.

(** ** [int] and [ceil] of a float *)
Lemma sf_fin x r : fe x = Fin r ->
  (exists s, FloatOps.Prim2SF x = S754_zero s) /\ r = 0 \/
  exists s m e, FloatOps.Prim2SF x = S754_finite s m e /\
    r = F2R (Float radix2 (cond_Zopp s (Zpos m)) e).
Proof.
  intros H. rewrite <- f2b_SF. unfold fe in H.
  destruct (f2b x) as [s|[]| |s m e Hb]; try discriminate; injection H as <-.
  - left. split; [exists s|]; reflexivity.
  - right. exists s, m, e. auto.
Qed.

Lemma pow2_pos p : IZR (Z.pow_pos 2 p) = bpow radix2 (Zpos p).
Proof. reflexivity. Qed.
Lemma pow2_neg p : bpow radix2 (Zneg p) = / IZR (Z.pow_pos 2 p).
Proof. reflexivity. Qed.

Lemma sf_ceil_spec x r z : fe x = Fin r -> sf_ceil (FloatOps.Prim2SF x) = Some z -> z = Zceil r.
Proof.
  intros Hr Hz. destruct (sf_fin x r Hr) as [[[s E] ->]|(s & m & e & E & ->)]; rewrite E in Hz.
  - cbn in Hz. injection Hz as <-. symmetry. apply (Zceil_IZR 0).
  - cbn -[Z.pow_pos Z.div Z.mul] in Hz. injection Hz as <-.
    replace (if s then Zneg m else Zpos m) with (cond_Zopp s (Zpos m)) by (destruct s; reflexivity).
    set (sm := cond_Zopp s (Zpos m)).
    unfold F2R. cbn [Fnum Fexp]. destruct e as [|p|p].
    + cbn [bpow]. rewrite Rmult_1_r, Zceil_IZR. reflexivity.
    + rewrite <- pow2_pos, <- mult_IZR, Zceil_IZR. reflexivity.
    + rewrite pow2_neg. unfold Zceil. f_equal.
      rewrite <- (Zfloor_div (- sm) (Z.pow_pos 2 p)) by (pose proof (Zpower_pos_gt_0 2 p); lia).
      f_equal. rewrite opp_IZR. unfold Rdiv. ring.
Qed.

Lemma sf_trunc_spec x r z : fe x = Fin r -> sf_trunc (FloatOps.Prim2SF x) = Some z -> z = Ztrunc r.
Proof.
  intros Hr Hz. destruct (sf_fin x r Hr) as [[[s E] ->]|(s & m & e & E & ->)]; rewrite E in Hz.
  - cbn in Hz. injection Hz as <-. symmetry. apply (Ztrunc_IZR 0).
  - cbn -[Z.pow_pos Z.div Z.mul] in Hz. injection Hz as <-.
    set (a := match e with Z0 => Zpos m | Zpos p => (Zpos m * Z.pow_pos 2 p)%Z
              | Zneg p => (Zpos m / Z.pow_pos 2 p)%Z end).
    assert (Ha : Ztrunc (F2R (Float radix2 (Zpos m) e)) = a).
    { unfold F2R, a. cbn [Fnum Fexp]. destruct e as [|p|p].
      - cbn [bpow]. rewrite Rmult_1_r, Ztrunc_IZR. reflexivity.
      - rewrite <- pow2_pos, <- mult_IZR, Ztrunc_IZR. reflexivity.
      - rewrite pow2_neg.
        assert (Hp : (0 < Z.pow_pos 2 p)%Z) by (pose proof (Zpower_pos_gt_0 2 p); lia).
        rewrite Ztrunc_floor.
        + apply (Zfloor_div (Zpos m) (Z.pow_pos 2 p)). lia.
        + apply Rmult_le_pos; [apply (IZR_le 0); lia|].
          apply Rlt_le, Rinv_0_lt_compat. apply (IZR_lt 0), Hp. }
    destruct s; cbn [cond_Zopp].
    + change (Z.neg m) with (- Zpos m)%Z. rewrite F2R_Zopp, Ztrunc_opp, Ha. reflexivity.
    + symmetry. exact Ha.
Qed.

Lemma sf_trunc_some x z : sf_trunc (FloatOps.Prim2SF x) = Some z -> exists r, fe x = Fin r.
Proof.
  rewrite <- f2b_SF. unfold fe. destruct (f2b x); cbn; try discriminate; intros _; eauto.
Qed.
Lemma sf_ceil_some x z : sf_ceil (FloatOps.Prim2SF x) = Some z -> exists r, fe x = Fin r.
Proof.
  rewrite <- f2b_SF. unfold fe. destruct (f2b x); cbn; try discriminate; intros _; eauto.
Qed.

(** ** The uniform draw stays between its bounds *)
Lemma er_rnd_Fin r v : er_rnd (Fin r) = Fin v -> v = rnd r.
Proof.
  unfold er_rnd. destruct (Rlt_dec _ _); [congruence|]. destruct (Rlt_dec _ _); discriminate.
Qed.
Lemma er_rnd_between a r b : fmt a -> fmt b -> Rabs a < fmax -> Rabs b < fmax -> a <= r <= b ->
  er_rnd (Fin r) = Fin (rnd r) /\ a <= rnd r <= b.
Proof.
  intros Fa Fb La Lb [H1 H2].
  assert (H : a <= rnd r <= b).
  { rewrite <- (rnd_fmt a Fa), <- (rnd_fmt b Fb). split; apply rnd_mono; assumption. }
  split; [|exact H]. unfold er_rnd. destruct (Rlt_dec _ _) as [_|n]; [reflexivity|].
  exfalso. apply n. apply Rabs_def2 in La. apply Rabs_def2 in Lb. apply Rabs_def1; lra.
Qed.

Lemma u_le_pred u : fmt u -> u < 1 -> u <= 1 - bpow radix2 (-53).
Proof.
  intros Fu Hu. replace (1 - bpow radix2 (-53)) with (pred radix2 fexp64 1).
  - apply pred_ge_gt; auto; [exact vexp64|]. apply (fmt_Z 1). lia.
  - change 1 with (bpow radix2 0) at 1. rewrite pred_bpow by exact vexp64. reflexivity.
Qed.

Lemma uniform_rounds lo hi u D :
  fmt lo -> fmt hi -> fmt u -> lo <= hi -> 0 <= u < 1 -> D = rnd (hi - lo) ->
  0 <= rnd (D * u) <= hi - lo.
Proof.
  intros Fl Fh Fu Hlh [Hu0 Hu1] ->. set (D := rnd (hi - lo)).
  assert (HD0 : 0 <= D) by (apply rnd_pos; lra).
  split; [apply rnd_pos; nra|].
  destruct (Rle_lt_dec D (hi - lo)) as [Hle|Hlt].
  - apply Rle_trans with D; [|exact Hle].
    rewrite <- (rnd_fmt D (fmt_rnd _)) at 2. apply rnd_mono. nra.
  - (* rounded up *)
    assert (HDp : 0 < D) by lra.
    assert (FD : fmt D) by apply fmt_rnd.
    apply Rle_trans with (pred radix2 fexp64 D).
    + apply round_N_le_midp; [exact vexp64|apply generic_format_pred; [exact vexp64|exact FD]|].
      rewrite succ_pred by (exact vexp64 || exact FD).
      pose proof (pred_plus_ulp radix2 fexp64 D HDp FD) as Hpu.
      set (pD := pred radix2 fexp64 D) in *.
      assert (HpD : pD < D) by (apply pred_lt_id; lra).
      assert (HpD0 : 0 <= pD) by (apply pred_ge_0; [exact vexp64|exact HDp|exact FD]).
      assert (Hbig : bpow radix2 (-1074 + 53 - 1) <= Rabs pD).
      { destruct (Rle_lt_dec (bpow radix2 (-1074 + 53 - 1)) (Rabs pD)) as [H|H]; [exact H|].
        exfalso. rewrite Rabs_pos_eq in H by exact HpD0.
        (* then hi - lo is exact *)
        assert (Hex : fmt (hi + - lo)).
        { apply (FLT_format_plus_small radix2 (-1074) 53);
            [exact Fh|apply generic_format_opp, Fl|].
          assert (HDs : D <= bpow radix2 (-1074 + 53 - 1)).
          { assert (Fb : fmt (bpow radix2 (-1074 + 53 - 1)))
              by (apply generic_format_bpow; vm_compute; discriminate).
            assert (Hs : succ radix2 fexp64 pD <= bpow radix2 (-1074 + 53 - 1))
              by (apply succ_le_lt; auto; [exact vexp64|apply generic_format_pred; [exact vexp64|exact FD]]).
            unfold pD in Hs. rewrite succ_pred in Hs by (exact vexp64 || exact FD). exact Hs. }
          replace (hi + - lo) with (hi - lo) by ring. rewrite Rabs_pos_eq by lra.
          apply Rlt_le, (Rlt_le_trans _ _ _ Hlt), (Rle_trans _ _ _ HDs), bpow_le. lia. }
        apply rnd_fmt in Hex. unfold D in Hlt. replace (hi + - lo) with (hi - lo) in Hex by ring. lra. }
      pose proof (ulp_FLT_le radix2 (-1074) 53 pD Hbig) as Hul.
      rewrite (Rabs_pos_eq pD) in Hul by exact HpD0.
      change (FLT_exp (-1074) 53) with fexp64 in Hul.
      assert (E52 : bpow radix2 (1 - 53) = 2 * bpow radix2 (-53)).
      { change (1 - 53)%Z with (1 + -53)%Z. rewrite bpow_plus. reflexivity. }
      rewrite E52 in Hul. pose proof (bpow_gt_0 radix2 (-53)) as H53.
      pose proof (u_le_pred u Fu Hu1) as Hup. set (h := bpow radix2 (-53)) in *. clearbody h.
      set (ul := ulp radix2 fexp64 pD) in *. clearbody ul pD.
      assert (D * u <= D * (1 - h)) by nra. nra.
    + (* the predecessor is at most the exact difference *)
      destruct (Rle_lt_dec (pred radix2 fexp64 D) (hi - lo)) as [H|H]; [exact H|].
      exfalso. assert (D <= pred radix2 fexp64 D).
      { unfold D at 1. rewrite <- (rnd_fmt (pred radix2 fexp64 D));
          [apply rnd_mono; lra|apply generic_format_pred; [exact vexp64|exact FD]]. }
      assert (pred radix2 fexp64 D < D) by (apply pred_lt_id; lra). lra.
Qed.

Lemma f_uniform lo hi u rl rh :
  fe lo = Fin rl -> fe hi = Fin rh -> rl <= rh ->
  (exists d, fe (hi - lo)%float = Fin d) ->
  PrimFloat.leb 0 u = true -> PrimFloat.ltb u 1 = true ->
  PrimFloat.leb lo (lo + (hi - lo) * u)%float = true /\
  PrimFloat.leb (lo + (hi - lo) * u)%float hi = true.
Proof.
  intros Hl Hh Hle [d Hd] H0 H1.
  assert (Hu : exists ru, fe u = Fin ru /\ 0 <= ru < 1).
  { rewrite fe_leb in H0. rewrite fe_ltb in H1.
    assert (E0 : fe 0%float = Fin 0) by reflexivity.
    assert (E1 : fe 1%float = Fin 1) by (apply (fe_ofZ 1); lia).
    rewrite E0 in H0. rewrite E1 in H1.
    destruct (fe u) as [ru| | |]; try discriminate. cbn in H0, H1. rb. exists ru. auto. }
  destruct Hu as (ru & Hu & Hru).
  destruct (fe_fmt _ _ Hl) as [Fl Bl]. destruct (fe_fmt _ _ Hh) as [Fh Bh].
  destruct (fe_fmt _ _ Hu) as [Fu Bu].
  pose proof Hd as Hd'. rewrite fe_sub, Hl, Hh in Hd'. cbn [er_sub] in Hd'. apply er_rnd_Fin in Hd'.
  pose proof (uniform_rounds rl rh ru d Fl Fh Fu Hle Hru Hd') as [P0 P1].
  assert (HP : fe ((hi - lo) * u)%float = Fin (rnd (d * ru))).
  { rewrite fe_mul, Hd, Hu. cbn [er_mul].
    destruct (fe_fmt _ _ Hd) as [Fd Bd].
    assert (0 <= d) by (rewrite Hd'; apply rnd_pos; lra).
    assert (F0 : fmt 0) by apply generic_format_0.
    destruct (er_rnd_between 0 (d * ru) d F0 Fd) as [E _];
      [rewrite Rabs_R0; apply fmax_pos|exact Bd|nra|exact E]. }
  assert (HR : exists v, fe (lo + (hi - lo) * u)%float = Fin v /\ rl <= v <= rh).
  { rewrite fe_add, Hl, HP. cbn [er_add].
    destruct (er_rnd_between rl (rl + rnd (d * ru)) rh Fl Fh Bl Bh) as [E Hb]; [lra|].
    rewrite E. eexists. split; [reflexivity|exact Hb]. }
  destruct HR as (v & Hv & Hvb). rewrite !fe_leb, Hv, Hl, Hh. cbn. rb. lra.
Qed.
