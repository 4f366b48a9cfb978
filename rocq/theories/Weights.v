(** C27: the recombination weights and learning rates of CMA-ES, in exact arithmetic. *)
From Coq Require Import Reals Lra Psatz.
From Verif Require Import Base Num NumR CMAES.
Open Scope R_scope.

(** ** Sums *)
Fixpoint rsum (l : list R) : R := match l with [] => 0 | x :: t => x + rsum t end.

Lemma fold_left_rsum l a : fold_left Rplus l a = a + rsum l.
Proof. revert a; induction l as [|x l IH]; intros a; cbn; [lra|]. rewrite IH. lra. Qed.
Lemma vsum_rsum (l : list R) : @vsum RArith l = rsum l.
Proof. unfold vsum. cbn. rewrite fold_left_rsum. unfold n0, nZ; cbn. lra. Qed.
Lemma rsum_app l k : rsum (l ++ k) = rsum l + rsum k.
Proof. induction l; cbn; lra. Qed.
Lemma rsum_div l s : rsum (map (fun x => x / s) l) = rsum l / s.
Proof. induction l as [|x l IH]; cbn; [unfold Rdiv; lra|]. rewrite IH. unfold Rdiv. lra. Qed.
Lemma rsum_pos l : l <> [] -> Forall (fun x => 0 < x) l -> 0 < rsum l.
Proof.
  intros Hn H. destruct H as [|x l Hx H]; [congruence|]. cbn. clear Hn.
  assert (0 <= rsum l) by (induction H; cbn; lra). lra.
Qed.
Lemma rsum_nonneg l : Forall (fun x => 0 <= x) l -> 0 <= rsum l.
Proof. induction 1; cbn; lra. Qed.

(** the sum of squares of positive numbers is at most the square of the sum *)
Lemma rsum_sq_le l : Forall (fun x => 0 < x) l -> rsum (map (fun x => x * x) l) <= rsum l * rsum l.
Proof.
  induction 1 as [|x l Hx H IH]; cbn; [lra|].
  assert (0 <= rsum l) by (apply rsum_nonneg; eapply Forall_impl; [|exact H]; cbn; intros; lra). nra.
Qed.
(** Cauchy-Schwarz against the constant vector *)
Lemma rsum_cs l : rsum l * rsum l <= INR (length l) * rsum (map (fun x => x * x) l).
Proof.
  assert (H : forall a, 0 <= rsum (map (fun x => x * x) l) - 2 * a * rsum l + a * a * INR (length l)).
  { intros a. induction l as [|x l IH]; [cbn; lra|]. cbn [rsum map length]. rewrite S_INR.
    pose proof (Rle_0_sqr (x - a)) as Hs. unfold Rsqr in Hs. nra. }
  destruct l as [|x l]; [cbn; lra|].
  assert (Hn : 0 < INR (length (x :: l))) by (apply lt_0_INR; cbn; lia).
  set (n := INR (length (x :: l))) in *. set (s := rsum (x :: l)) in *.
  set (q := rsum (map _ (x :: l))) in *. specialize (H (s / n)).
  assert (Hq : q - 2 * (s / n) * s + s / n * (s / n) * n = q - s * s / n) by (field; lra).
  rewrite Hq in H. assert (s * s / n * n = s * s) by (field; lra). nra.
Qed.

(** ** The weights *)
Lemma raw_weights_eq mu : @raw_weights RArith mu =
  map (fun k => ln (INR mu + / 2) - ln (INR k)) (seq 1 mu).
Proof.
  unfold raw_weights. apply map_ext. intros k. unfold nN, nZ. cbn. rewrite <- !INR_IZR_INZ.
  replace (5 / 10) with (/2) by lra. reflexivity.
Qed.

Lemma raw_weights_pos mu : Forall (fun x => 0 < x) (@raw_weights RArith mu).
Proof.
  rewrite raw_weights_eq. apply Forall_forall. intros x Hx. apply in_map_iff in Hx.
  destruct Hx as (k & <- & Hk). apply in_seq in Hk.
  assert (H1 : 0 < INR k) by (apply lt_0_INR; lia).
  assert (H2 : INR k <= INR mu) by (apply le_INR; lia).
  assert (ln (INR k) < ln (INR mu + /2)) by (apply ln_increasing; lra). lra.
Qed.

(** C27: at least one parent: the weights are positive, strictly decreasing and sum to one. *)
Theorem C27_weights mu : (1 <= mu)%nat ->
  let w := @cma_weights RArith mu in
  length w = mu /\
  Forall (fun x => 0 < x) w /\
  (forall i j, (i < j < mu)%nat -> nth j w 0 < nth i w 0) /\
  rsum w = 1.
Proof.
  intros Hmu w. unfold w, cma_weights. rewrite vsum_rsum.
  set (r := @raw_weights RArith mu : list R). set (s := rsum r).
  assert (Hl : @length R r = mu)
    by (unfold r; rewrite raw_weights_eq, map_length, seq_length; reflexivity).
  assert (Hs : 0 < s).
  { apply rsum_pos; [|apply raw_weights_pos]. intros E. rewrite E in Hl. cbn in Hl. lia. }
  cbn [ndiv RArith]. split; [rewrite map_length; exact Hl|]. split; [|split].
  - apply Forall_map. eapply Forall_impl; [|apply raw_weights_pos]. cbn. intros a Ha.
    apply Rdiv_lt_0_compat; assumption.
  - intros i j [Hij Hj].
    assert (Hn : forall k, (k < mu)%nat ->
        nth k (map (fun x => x / s) r) 0 = (ln (INR mu + /2) - ln (INR (S k))) / s).
    { intros k Hk. rewrite (nth_indep _ 0 ((fun x => x / s) 0)) by (rewrite map_length, Hl; exact Hk).
      rewrite (map_nth (fun x => x / s)). f_equal. unfold r. rewrite raw_weights_eq.
      rewrite (nth_indep _ 0 ((fun k => ln (INR mu + / 2) - ln (INR k)) 0%nat))
        by (rewrite map_length, seq_length; exact Hk).
      rewrite (map_nth (fun k => ln (INR mu + / 2) - ln (INR k))), seq_nth by exact Hk.
      reflexivity. }
    rewrite !Hn by lia.
    assert (ln (INR (S i)) < ln (INR (S j))).
    { apply ln_increasing; [apply lt_0_INR; lia|apply lt_INR; lia]. }
    unfold Rdiv. apply Rmult_lt_compat_r; [apply Rinv_0_lt_compat, Hs|lra].
  - rewrite rsum_div. fold s. field. lra.
Qed.

(** C27: the variance-effective selection mass lies between 1 and the number of parents. *)
Theorem C27_mueff mu : (1 <= mu)%nat ->
  1 <= @cma_mueff RArith (@cma_weights RArith mu) <= INR mu.
Proof.
  intros Hmu. destruct (C27_weights mu Hmu) as (Hl & Hp & _ & Hs). cbn zeta in *.
  set (w := @cma_weights RArith mu : list R) in *. change (@length R w = mu) in Hl.
  unfold cma_mueff. rewrite !vsum_rsum, Hs.
  unfold nsq. cbn [nmul ndiv RArith]. replace (1 * 1) with 1 by lra.
  set (q := rsum (map (fun x => x * x) w)).
  assert (Hq : q <= 1) by (pose proof (rsum_sq_le w Hp) as H; rewrite Hs in H; unfold q; lra).
  assert (Hc : 1 <= INR mu * q) by (pose proof (rsum_cs w) as H; rewrite Hs, Hl in H; unfold q; lra).
  assert (Hm : 1 <= INR mu) by (apply (le_INR 1); exact Hmu).
  assert (Hq0 : 0 < q) by nra.
  fold q. split.
  - apply (Rmult_le_reg_r q); [exact Hq0|]. unfold Rdiv. rewrite Rmult_assoc, Rinv_l by lra. lra.
  - apply (Rmult_le_reg_r q); [exact Hq0|]. unfold Rdiv. rewrite Rmult_assoc, Rinv_l by lra. lra.
Qed.

Lemma Rdiv_bound a b : 0 < b -> a <= b -> a / b <= 1.
Proof.
  intros Hb H. apply (Rmult_le_reg_r b); [exact Hb|]. unfold Rdiv.
  rewrite Rmult_assoc, Rinv_l by lra. lra.
Qed.
Lemma Rdiv_bound_lt a b : 0 < b -> a < b -> a / b < 1.
Proof.
  intros Hb H. apply (Rmult_lt_reg_r b); [exact Hb|]. unfold Rdiv.
  rewrite Rmult_assoc, Rinv_l by lra. lra.
Qed.
Lemma pymin_R a b : @pymin RArith a b = Rmin a b.
Proof.
  unfold pymin. cbn. destruct (Rltb b a) eqn:E.
  - apply Rltb_true in E. symmetry. apply Rmin_right. lra.
  - apply Rltb_false in E. symmetry. apply Rmin_left. lra.
Qed.
Lemma pymax_R a b : @pymax RArith a b = Rmax a b.
Proof.
  unfold pymax. cbn. destruct (Rltb a b) eqn:E.
  - apply Rltb_true in E. symmetry. apply Rmax_right. lra.
  - apply Rltb_false in E. symmetry. apply Rmax_left. lra.
Qed.

Lemma sq_plus_inv m : 0 < m -> 0 <= m - 2 + 1 / m.
Proof.
  intros Hm. replace (m - 2 + 1 / m) with ((m - 1) * (m - 1) / m) by (field; lra).
  apply Rmult_le_pos; [|left; apply Rinv_0_lt_compat, Hm].
  pose proof (Rle_0_sqr (m - 1)) as H. unfold Rsqr in H. exact H.
Qed.

Ltac rnum := unfold nsq, n0, n1, nZ, nN in *;
  cbn [nadd nsub nmul ndiv nsqrt nexp nln nabs nlit RArith Rlit] in *;
  try change (Z.pow_pos 10 1) with 10%Z in *.

(** C27: the learning rates and the damping, for any number of dimensions and any effective mass. *)
Theorem C27_rates (n m : R) : 1 <= n -> 1 <= m ->
  0 < @cma_cc RArith n m < 1 /\
  0 < @cma_cs RArith n m < 1 /\
  0 < @cma_c1 RArith n m < 1 /\
  0 <= @cma_cmu RArith n m /\
  @cma_c1 RArith n m + @cma_cmu RArith n m <= 1 /\
  1 <= @cma_damps RArith n m.
Proof.
  intros Hn Hm.
  assert (Hcc : 0 < @cma_cc RArith n m < 1).
  { unfold cma_cc. rnum. assert (H : 0 < m / n) by (apply Rdiv_lt_0_compat; lra).
    replace (2 * m / n) with (2 * (m / n)) by (unfold Rdiv; lra). split.
    - apply Rdiv_lt_0_compat; lra.
    - apply Rdiv_bound_lt; lra. }
  assert (Hcs : 0 < @cma_cs RArith n m < 1).
  { unfold cma_cs. rnum. split; [apply Rdiv_lt_0_compat|apply Rdiv_bound_lt]; lra. }
  assert (Hc1 : 0 < @cma_c1 RArith n m < 1).
  { unfold cma_c1. rnum. assert (4 <= (n + 13 / 10) * (n + 13 / 10)) by nra.
    split; [apply Rdiv_lt_0_compat|apply Rdiv_bound_lt]; lra. }
  split; [exact Hcc|]. split; [exact Hcs|]. split; [exact Hc1|].
  assert (Hcmu : 0 <= @cma_cmu RArith n m /\ @cma_c1 RArith n m + @cma_cmu RArith n m <= 1).
  { unfold cma_cmu at 1 2. rewrite pymin_R.
    set (b := ndiv _ _).
    assert (Hb : 0 <= b).
    { unfold b. rnum. apply Rmult_le_pos.
      - apply Rmult_le_pos; [lra|]. apply sq_plus_inv; lra.
      - left. apply Rinv_0_lt_compat. nra. }
    rnum. split; [apply Rmin_glb; lra|]. pose proof (Rmin_l (1 - @cma_c1 RArith n m) b). lra. }
  split; [apply Hcmu|]. split; [apply Hcmu|].
  unfold cma_damps. rewrite pymax_R. set (c := @cma_cs RArith n m) in *. rnum.
  match goal with |- 1 <= _ + 2 * Rmax 0 ?x + _ => pose proof (Rmax_l 0 x) end. lra.
Qed.

(** C27 for the parameters the solvers really use: int(muperc * popsize) >= 1 parents, ndim >= 1. *)
Theorem C27_cma (d mu : nat) : (1 <= d)%nat -> (1 <= mu)%nat ->
  let m := @cma_mueff RArith (@cma_weights RArith mu) in
  let n := @nN RArith d in
  0 < @cma_cc RArith n m < 1 /\ 0 < @cma_cs RArith n m < 1 /\ 0 < @cma_c1 RArith n m < 1 /\
  0 <= @cma_cmu RArith n m /\ @cma_c1 RArith n m + @cma_cmu RArith n m <= 1 /\
  1 <= @cma_damps RArith n m.
Proof.
  intros Hd Hmu m n. apply C27_rates; [|apply C27_mueff, Hmu].
  unfold n. rnum. rewrite <- INR_IZR_INZ. apply (le_INR 1), Hd.
Qed.

(** The bound c1 + cmu <= 1 is attained: with one dimension and mueff = 100, no memory is left. *)
Theorem C27_no_memory : @cma_c1 RArith 1 100 + @cma_cmu RArith 1 100 = 1.
Proof.
  unfold cma_cmu. rewrite pymin_R. rnum.
  assert (H : @cma_c1 RArith 1 100 = 2 / (5.29 + 100)) by (unfold cma_c1; rnum; f_equal; lra).
  rewrite H. rewrite Rmin_left; lra.
Qed.
(** With one parent the covariance update degenerates to cmu = 0. *)
Theorem C27_one_parent n : 1 <= n -> @cma_cmu RArith n 1 = 0.
Proof.
  intros Hn. pose proof (C27_rates n 1 Hn ltac:(lra)) as (_ & _ & H1 & _).
  unfold cma_cmu. rewrite pymin_R. rnum. replace (2 * (1 - 2 + 1 / 1)) with 0 by field.
  replace (0 / _) with 0 by (unfold Rdiv; lra). apply Rmin_right. lra.
Qed.
