(** The matrix operations of CMA-ES on finite numbers: the extended reals agree with the reals. *)
From Coq Require Import Reals Lra Psatz.
From Verif Require Import Base Num NumR NumE Env Common DE Mat CMAES VDCMA Weights Inst FeasPso VdReal Visit VdRun Cov.
Open Scope R_scope.

Notation mfin := (map (map Fin)).

Lemma fin_length (l : list R) : length (fin l) = length l.
Proof. apply map_length. Qed.
Lemma mfin_length (m : list (list R)) : length (mfin m) = length m.
Proof. apply map_length. Qed.
Lemma nth_fin k (l : list R) : nth k (fin l) (@n0 EArith) = Fin (nth k l 0).
Proof. change (@n0 EArith) with (Fin 0). apply map_nth. Qed.
Lemma nth_mfin k (m : list (list R)) : nth k (mfin m) [] = fin (nth k m []).
Proof. exact (map_nth fin m [] k). Qed.
Lemma mget_fin (m : list (list R)) i j : @mget EArith (mfin m) i j = Fin (ent m i j).
Proof. unfold mget, ent. rewrite <- nth_fin, <- nth_mfin. reflexivity. Qed.
Lemma mtab_fin r c (f : nat -> nat -> er) (g : nat -> nat -> R) : (forall i j, (i < r)%nat -> (j < c)%nat -> f i j = Fin (g i j)) ->
  @mtab EArith r c f = mfin (@mtab RArith r c g).
Proof.
  intros H. unfold mtab. rewrite map_map. apply map_ext_in. intros i Hi. apply in_seq in Hi. rewrite map_map.
  apply map_ext_in. intros j Hj. apply in_seq in Hj. apply H; lia.
Qed.
Lemma vdot_R (a b : list R) : @vdot RArith a b = rdot a b.
Proof. unfold vdot. rewrite vsum_rsum. reflexivity. Qed.
Lemma vdot_finR (a b : list R) : @vdot EArith (fin a) (fin b) = Fin (@vdot RArith a b).
Proof. rewrite vdot_R. apply vdot_fin. Qed.
Lemma col_fin (m : list (list R)) j : @col EArith (mfin m) j = fin (@col RArith m j).
Proof. unfold col. rewrite !map_map. apply map_ext. intros r. apply nth_fin. Qed.
Lemma vmat_fin c (w : list R) m : @vmat EArith c (fin w) (mfin m) = fin (@vmat RArith c w m).
Proof. unfold vmat. rewrite map_map. apply map_ext. intros j. rewrite col_fin. apply vdot_finR. Qed.
Lemma mmul_fin c (a b : list (list R)) : @mmul EArith c (mfin a) (mfin b) = mfin (@mmul RArith c a b).
Proof. unfold mmul. rewrite !map_map. apply map_ext. intros r. apply vmat_fin. Qed.
Lemma mtrans_fin c (m : list (list R)) : @mtrans EArith c (mfin m) = mfin (@mtrans RArith c m).
Proof. unfold mtrans. rewrite map_map. apply map_ext. intros j. apply col_fin. Qed.
Lemma diagm_fin (v : list R) : @diagm EArith (fin v) = mfin (@diagm RArith v).
Proof.
  unfold diagm. rewrite fin_length. apply mtab_fin. intros i j _ _. destruct (i =? j)%nat; [apply nth_fin|reflexivity].
Qed.
Lemma eye_fin d : @eye EArith d = mfin (@eye RArith d).
Proof. unfold eye. apply mtab_fin. intros i j _ _. destruct (i =? j)%nat; reflexivity. Qed.
Lemma vadd_fin (a b : list R) : @vadd EArith (fin a) (fin b) = fin (@vadd RArith a b).
Proof. apply map2_fin. reflexivity. Qed.
Lemma vscale_fin k (a : list R) : @vscale EArith (Fin k) (fin a) = fin (@vscale RArith k a).
Proof. apply map_fin. reflexivity. Qed.
Lemma madd_fin (a b : list (list R)) : @madd EArith (mfin a) (mfin b) = mfin (@madd RArith a b).
Proof. unfold madd. revert b; induction a as [|x a IH]; intros [|y b]; cbn [map map2]; try reflexivity. rewrite IH. f_equal. apply vadd_fin. Qed.
Lemma mscale_fin k (m : list (list R)) : @mscale EArith (Fin k) (mfin m) = mfin (@mscale RArith k m).
Proof. unfold mscale. rewrite !map_map. apply map_ext. intros r. apply map_fin. reflexivity. Qed.
Lemma mscale_l_fin k (m : list (list R)) : @mscale_l EArith (Fin k) (mfin m) = mfin (@mscale_l RArith k m).
Proof. unfold mscale_l. rewrite !map_map. apply map_ext. intros r. apply vscale_fin. Qed.
Lemma outer_fin (u v : list R) : @outer EArith (fin u) (fin v) = mfin (@outer RArith u v).
Proof. unfold outer. rewrite !map_map. apply map_ext. intros x. apply vscale_fin. Qed.
Lemma symm_fin d (m : list (list R)) : @symm EArith d (mfin m) = mfin (@symm RArith d m).
Proof.
  unfold symm. apply mtab_fin. intros i j _ _. rewrite !mget_fin. destruct (i <=? j)%nat; reflexivity.
Qed.
Lemma mdiag_fin (m : list (list R)) : @mdiag EArith (mfin m) = fin (map (fun i => ent m i i) (seq 0 (length m))).
Proof. unfold mdiag. rewrite mfin_length, map_map. apply map_ext. intros i. apply mget_fin. Qed.

Lemma cov_update_fin d c1 cc cmu (w : list R) y pc cond C :
  @cov_update EArith d (Fin c1) (Fin cc) (Fin cmu) (fin w) (mfin y) (fin pc) cond (mfin C) =
  mfin (@cov_update RArith d c1 cc cmu w y pc cond C).
Proof.
  unfold cov_update. cbv zeta. rewrite mtrans_fin, diagm_fin, fin_length, mmul_fin, mmul_fin, mscale_l_fin, outer_fin, mscale_l_fin.
  change (@nsub EArith (@nsub EArith (@n1 EArith) (Fin c1)) (Fin cmu)) with (Fin (1 - c1 - cmu)).
  rewrite mscale_fin, madd_fin, madd_fin. destruct cond.
  - rewrite !map_map. apply map_ext. intros r. apply map_fin. reflexivity.
  - change (@nmul EArith (@nmul EArith (Fin c1) (Fin cc)) (@nsub EArith (@nZ EArith 2) (Fin cc))) with (Fin (c1 * cc * (Rlit 2 0 - cc))).
    rewrite mscale_l_fin, madd_fin. reflexivity.
Qed.

(** The rates *)
Lemma nN_R d : @nN RArith d = INR d.
Proof. unfold nN, nZ. cbn. symmetry. apply INR_IZR_INZ. Qed.
Lemma c1_E n m : 1 <= n -> 1 <= m -> @cma_c1 EArith (Fin n) (Fin m) = Fin (@cma_c1 RArith n m).
Proof.
  intros Hn Hm. unfold cma_c1, nsq, nZ. cbn [nadd nsub nmul ndiv nlit EArith RArith er_add er_mul]. apply div_fin.
  unfold Rlit. cbn. nra.
Qed.
Lemma cmu_C n m : 1 <= n -> 1 <= m -> @cma_cmu EArith (Fin n) (Fin m) = Fin (@cma_cmu RArith n m).
Proof.
  intros Hn Hm. unfold cma_cmu. rewrite c1_E by assumption. unfold nsq, nZ. change (@n1 EArith) with (Fin 1). change (@n1 RArith) with 1.
  cbn [nadd nsub nmul ndiv nlit EArith RArith er_add er_sub er_mul]. rewrite (div_fin 1 m) by lra. cbn [er_add er_mul].
  rewrite div_fin by (unfold Rlit; nra). unfold pymin. cbn [nltb EArith RArith er_ltb]. destruct (Rltb _ _); reflexivity.
Qed.
Lemma cc_C n m : 1 <= n -> 1 <= m -> @cma_cc EArith (Fin n) (Fin m) = Fin (@cma_cc RArith n m).
Proof.
  intros Hn Hm. unfold cma_cc, nZ. cbn [nadd nsub nmul ndiv nlit EArith RArith er_add er_mul]. rewrite !div_fin by lra. cbn [er_add].
  apply div_fin. assert (0 < m / n) by (apply Rdiv_lt_0_compat; lra). unfold Rlit. replace (2 * m / n) with (2 * (m / n)) by (unfold Rdiv; ring). lra.
Qed.
Lemma csig_C n m : 1 <= n -> 1 <= m -> @cma_cs EArith (Fin n) (Fin m) = Fin (@cma_cs RArith n m).
Proof.
  intros Hn Hm. unfold cma_cs, nZ. cbn [nadd nsub nmul ndiv nlit EArith RArith er_add er_mul]. apply div_fin. unfold Rlit. lra.
Qed.
Lemma damps_C n m : 1 <= n -> 1 <= m -> @cma_damps EArith (Fin n) (Fin m) = Fin (@cma_damps RArith n m).
Proof.
  intros Hn Hm. unfold cma_damps. rewrite csig_C by assumption. unfold nZ. change (@n1 EArith) with (Fin 1). change (@n1 RArith) with 1.
  change (@n0 EArith) with (Fin 0). change (@n0 RArith) with 0.
  cbn [nadd nsub nmul ndiv nsqrt nlit EArith RArith er_add er_sub er_mul]. rewrite (div_fin (m - 1)) by lra.
  assert (H : 0 <= (m - 1) / (n + 1)) by (apply Rmult_le_pos; [lra|left; apply Rinv_0_lt_compat; lra]).
  rewrite sqrt_fin by exact H. cbn [er_sub]. unfold pymax. cbn [nltb EArith RArith er_ltb]. destruct (Rltb _ _); reflexivity.
Qed.
(** The expected length of a normal vector is taken as sqrt n (1 - 1/(4 n) + 1/(21 n^2)) *)
Lemma chind_C d : (1 <= d)%nat -> exists k, 0 < k /\ @cma_chind EArith d = Fin k.
Proof.
  intros Hd. unfold cma_chind, nZ. rewrite nN_E. assert (Hn : 1 <= INR d) by (apply (le_INR 1); exact Hd).
  change (@n1 EArith) with (Fin 1). cbn [nadd nsub nmul ndiv nsqrt nlit EArith er_add er_sub er_mul].
  assert (E : Rlit (Z.of_nat d * Z.of_nat d) 0 = INR d * INR d) by (unfold Rlit; rewrite mult_IZR, <- INR_IZR_INZ; reflexivity).
  rewrite E. unfold Rlit. rewrite sqrt_fin by lra. rewrite !div_fin by nra. cbn [er_sub er_add er_mul].
  eexists. split; [|reflexivity]. apply Rmult_lt_0_compat; [apply sqrt_lt_R0; lra|].
  assert (H1 : 1 / (4 * INR d) <= 1 / 4).
  { apply Rmult_le_reg_r with (4 * INR d); [lra|]. unfold Rdiv. rewrite Rmult_assoc, Rinv_l by lra. lra. }
  assert (H2 : 0 < 1 / (21 * (INR d * INR d))) by (apply Rdiv_lt_0_compat; nra). lra.
Qed.

(** c1 + cmu < 1 unless the effective number of parents is large for the dimension *)
Lemma rates_lt n m : 1 <= n -> 1 <= m -> m <= (n + 1) * (n + 1) -> @cma_c1 RArith n m + @cma_cmu RArith n m < 1.
Proof.
  intros Hn Hm H. unfold cma_cmu. rewrite pymin_R. eapply Rle_lt_trans; [apply Rplus_le_compat_l, Rmin_r|].
  unfold cma_c1. rnum. replace (13 / IZR (Z.pow_pos 10 1)) with (13 / 10) by (cbn; lra).
  set (D := (n + 13 / 10) * (n + 13 / 10) + m). assert (HD : 0 < D) by (unfold D; nra).
  pose proof (sq_plus_inv m ltac:(lra)) as Hs.
  assert (HE : 0 < (n + 2) * (n + 2) + m) by nra.
  assert (H1 : 2 * (m - 2 + 1 / m) / ((n + 2) * (n + 2) + m) <= 2 * (m - 2 + 1 / m) / D).
  { unfold Rdiv. apply Rmult_le_compat_l; [fold (1 / m); lra|]. apply Rinv_le_contravar; [exact HD|]. unfold D. nra. }
  assert (H2 : 1 / m <= 1) by (apply Rdiv_bound; lra).
  assert (H3 : 2 / D + 2 * (m - 2 + 1 / m) / D < 1); [|lra].
  replace (2 / D + 2 * (m - 2 + 1 / m) / D) with ((2 + 2 * (m - 2 + 1 / m)) / D) by (field; split; lra).
  apply Rdiv_bound_lt; [exact HD|]. unfold D. nra.
Qed.
