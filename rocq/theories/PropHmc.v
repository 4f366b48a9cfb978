(** Theorems about hmc (C36-C38, C49) and about the callbacks of both samplers (C50). *)
From Verif Require Import Base Num Env Common DE Sample Hoare EvalRules Gen Steps Best Inst Disc Valid Accept
  Chain Mcmc PropMc Hmc.

Section PropHmc.
  Context {N : Num} {E : Env N} {L : OrdLaws num_arith}.

  (** ** Specification of an HMC chain, by index. *)
  Record HmcChain (A : HMCArgs) (t : list event)
      (rows : matrix) (steps : vec) (X : matrix) (F : vec) (acc : list bool) : Prop := {
    hc_bounds : s_bounds (hma A) = D2 2 rows;
    hc_steps : scaled_steps (hma A) rows steps;
    hc_X : length X = Z.to_nat (s_maxiter (hma A));
    hc_F : length F = Z.to_nat (s_maxiter (hma A));
    hc_acc : length acc = Z.to_nat (s_maxiter (hma A)) - 1;
    hc_dim : Forall (fun x : vec => length x = length rows) X;
    hc_first : first_sample (hma A) rows (nth 0 X []);
    hc_values : forall k, k < length X -> In (nth k X [], nth k F n0) (evals t);
    hc_nofail : ncalls t = length (evals t);
    hc_step : forall k, k < length acc -> exists p0 p y fy evl,
      length p0 = length rows /\ Forall israndn p0 /\
      Leapfrog (hma_fd A) steps (Z.to_nat (hma_nleap A)) (nth k X []) p0 y p evl /\
      (nth (S k) X [], nth (S k) F n0) =
        (if nth k acc false then (y, fy) else (nth k X [], nth k F n0)) /\
      (if rejects (hma A) then nth k acc false = false
       else exists U0 u, isrand u /\ In (nth k X [], U0) (evals t) /\ In (y, fy) (evals t) /\
         nth k acc false =
           metropolis (nsub (nadd (nsub U0 fy) (kinetic p0)) (kinetic p)) u) }.

  Lemma hm_evals_step a d n h steps X F acc y fy bb evs :
    hmR a d n h steps X F acc y fy bb evs ->
    ncalls evs = hm_cost a d n /\ length (evals evs) = hm_cost a d n.
  Proof.
    intros (p0 & p & evl & tail & imin & fmin & _ & _ & _ & _ & Hn & Hm & Ht & _ & ->).
    rewrite !ncalls_app, !evals_app, !app_length, ncalls_scbe, evals_scbe, Hn. cbn.
    assert (Hev : length (evals evl) = 2 * (n + 2) * d).
    { rewrite <- Hn, Hm at 1. rewrite evals_ok. rewrite Hm at 2. rewrite ncalls_ok. reflexivity. }
    rewrite Hev. unfold hm_cost. destruct (rejects a).
    - destruct Ht as [_ ->]. cbn. lia.
    - destruct Ht as (U0 & u & _ & _ & ->). cbn. lia.
  Qed.

  Lemma hm_count a d n h steps x f t0 X F acc t :
    Traj (hmR a d n h steps) x f t0 X F acc t ->
    ncalls t = ncalls t0 + length acc * hm_cost a d n /\
    length (evals t) = length (evals t0) + length acc * hm_cost a d n.
  Proof.
    induction 1 as [|X F acc t y fy bb evs HT [IH1 IH2] HR]; [cbn; lia|].
    destruct (hm_evals_step _ _ _ _ _ _ _ _ _ _ _ _ HR) as [H1 H2].
    rewrite ncalls_app, evals_app, !app_length, H1, H2, IH1, IH2. cbn. lia.
  Qed.

  Lemma HmRun_chain A rows steps x f t0 X F acc res t :
    HmRun A rows steps x f t0 X F acc res t -> HmcChain A t rows steps X F acc.
  Proof.
    intros [[H1 H2 H3 H4 H5 H6 H7] HT Hl Hres].
    pose proof (Traj_len _ _ _ _ _ _ _ _ HT) as [HlX HlF].
    destruct (Traj_first _ _ _ _ _ _ _ _ HT) as [Hf1 Hf2].
    assert (Ht0 : evals t0 = [(x, f)] /\ ncalls t0 = 1).
    { rewrite H7. cbn. rewrite evals_scbe0, ncalls_scbe0. auto. }
    destruct Ht0 as [Ht0 Ht1].
    destruct (hm_count _ _ _ _ _ _ _ _ _ _ _ _ HT) as [Hc1 Hc2].
    constructor; auto; try lia.
    - eapply (hm_R_len A rows steps x f t0); eauto. apply H2.
    - rewrite Hf1. exact H3.
    - eapply Traj_evals; [| |exact HT]; [|rewrite Ht0; left; reflexivity].
      intros X' F' acc' y fy evs (p0 & p & evl & tail & imin & fmin & _ & _ & _ & _ & _ & _ & Ht & _ & ->).
      rewrite !evals_app, !in_app_iff. destruct (rejects (hma A)); [destruct Ht; discriminate|].
      destruct Ht as (U0 & u & _ & _ & ->). right; left. cbn. auto.
    - rewrite Hc1, Hc2, Ht0, Ht1. reflexivity.
    - intros k Hk.
      destruct (Traj_step _ _ _ _ _ _ _ _ HT k Hk) as (X' & F' & acc' & t' & y & fy & b & evs & t'' &
        HT' & HR & HX' & HF' & Hacc' & Hla & Hb & HkX & HkF & HSX & HSF & Htt).
      destruct HR as (p0 & p & evl & tail & imin & fmin & Hp0 & HF0 & HL & Hy & Hn & Hm & Ht & _ & Hev).
      exists p0, p, y, fy, evl. split; auto. split; auto. rewrite HkX. split; auto.
      rewrite Hb, HSX, HSF. split; [destruct b; rewrite <- ?HkX; reflexivity|].
      destruct (rejects (hma A)); [apply Ht|]. destruct Ht as (U0 & u & Hu & Hbb & ->).
      exists U0, u. split; auto.
      assert (Hin : forall pr, In pr [(lastx X', U0); (y, fy)] -> In pr (evals t)).
      { intros pr Hpr. rewrite Htt, Hev, !evals_app, !in_app_iff. right; left; right; left. exact Hpr. }
      split; [apply Hin; cbn; auto|]. split; [apply Hin; cbn; auto|]. exact Hbb.
  Qed.

  (** ** C37 *)
  Theorem C37_chain_hmc A w a0 res st' :
    hma_jac A = JacNone -> exec (hmc_sample A) w a0 = (inl res, st') ->
    exists rows steps X F acc,
      HmcChain A (tr st') rows steps X F acc /\
      sr_nit res = s_maxiter (hma A) /\
      sr_accept res = ndiv (nN (length (filter (fun c => c) acc))) (nZ (s_maxiter (hma A))) /\
      sr_all res = (if s_return_all (hma A) then Some (X, F) else None) /\
      (* the evaluation count *)
      sr_nfev res = Some (Z.of_nat (ncalls (tr st'))) /\
      Z.of_nat (ncalls (tr st')) =
        (1 + (s_maxiter (hma A) - 1) *
             (2 * Z.of_nat (length rows) * (hma_nleap A + 2) + (if rejects (hma A) then 0 else 2)))%Z /\
      (* the reported sample *)
      (exists i, i < length X /\ sr_x res = nth i X [] /\ sr_fun res = nth i F n0) /\
      (Forall isnum F -> forall j, j < length F -> nleb (sr_fun res) (nth j F n0) = true) /\
      ((exists j, j < length F /\ ~ isnum (nth j F n0)) -> ~ isnum (sr_fun res)).
  Proof.
    intros Hj H. destruct (wp_elim _ _ _ _ _ _ (hmc_wp A w a0 Hj) H)
      as (rows & steps & x & f & t0 & X & F & acc & HR).
    pose proof (HmRun_chain _ _ _ _ _ _ _ _ _ _ _ HR) as HC.
    exists rows, steps, X, F, acc. split; [exact HC|].
    destruct HR as [HS HT Hl ->]. cbn [sr_nit sr_accept sr_all sr_nfev sr_x sr_fun].
    pose proof (Traj_len _ _ _ _ _ _ _ _ HT) as [HlX HlF].
    destruct (hm_count _ _ _ _ _ _ _ _ _ _ _ _ HT) as [Hc1 _].
    assert (Ht1 : ncalls t0 = 1).
    { rewrite (hs_t0 _ _ _ _ _ _ HS). cbn. rewrite ncalls_scbe0. reflexivity. }
    rewrite Ht1 in Hc1. pose proof (hs_nleap _ _ _ _ _ _ HS) as Hn.
    split; auto. split; [reflexivity|]. split; auto.
    split; [f_equal; lia|]. split.
    { rewrite Hc1. unfold hm_cost.
      assert (Hla : Z.of_nat (length acc) = (s_maxiter (hma A) - 1)%Z) by lia.
      rewrite Nat2Z.inj_add, Nat2Z.inj_mul, Hla. 
      assert (Hcost : Z.of_nat (2 * (Z.to_nat (hma_nleap A) + 2) * length rows + (if rejects (hma A) then 0 else 2)) =
        (2 * Z.of_nat (length rows) * (hma_nleap A + 2) + (if rejects (hma A) then 0 else 2))%Z)
        by (destruct (rejects (hma A)); nia).
      rewrite Hcost. reflexivity. }
    assert (HFne : F <> []) by (intros ->; discriminate HlF).
    split; [exists (argmin F); split; [rewrite HlX, <- HlF; apply argmin_lt; auto|auto]|].
    split; [intros HF; apply argmin_min; auto|apply argmin_nan].
  Qed.

  (** ** C36 for hmc *)
  Theorem C36_reject_hmc A w a0 res st' :
    hma_jac A = JacNone -> s_constraints (hma A) = Some "Reject"%string ->
    exec (hmc_sample A) w a0 = (inl res, st') ->
    exists x f, nth 0 (evals (tr st')) ([], n0) = (x, f) /\
      sr_x res = x /\ sr_fun res = f /\
      sr_accept res = ndiv (nZ 0) (nZ (s_maxiter (hma A))) /\
      sr_all res = (if s_return_all (hma A)
                    then Some (repeat x (Z.to_nat (s_maxiter (hma A))),
                               repeat f (Z.to_nat (s_maxiter (hma A)))) else None).
  Proof.
    intros Hj Hr H. destruct (wp_elim _ _ _ _ _ _ (hmc_wp A w a0 Hj) H)
      as (rows & steps & x & f & t0 & X & F & acc & HR).
    pose proof (HmRun_chain _ _ _ _ _ _ _ _ _ _ _ HR) as HC.
    assert (Hrej : rejects (hma A) = true) by (unfold rejects; rewrite Hr; reflexivity).
    destruct HR as [HS HT Hl ->]. cbn [sr_nit sr_accept sr_all sr_nfev sr_x sr_fun].
    pose proof (Traj_len _ _ _ _ _ _ _ _ HT) as [HlX HlF].
    destruct (Traj_first _ _ _ _ _ _ _ _ HT) as [Hf1 Hf2].
    assert (Hacc : forall k, nth k acc false = false).
    { intros k. destruct (Nat.lt_ge_cases k (length acc)) as [Hk|Hk].
      - destruct (hc_step _ _ _ _ _ _ _ HC k Hk) as (p0 & p & y & fy & evl & _ & _ & _ & _ & H4).
        rewrite Hrej in H4. exact H4.
      - apply nth_overflow; lia. }
    assert (HXF : forall k, k < length X -> nth k X [] = x /\ nth k F n0 = f).
    { induction k as [|k IH]; intros Hk; [auto|].
      destruct (hc_step _ _ _ _ _ _ _ HC k ltac:(lia)) as (p0 & p & y & fy & evl & _ & _ & _ & H3 & _).
      rewrite Hacc in H3. injection H3 as H3 H4. rewrite H3, H4. apply IH; lia. }
    assert (Hna : nacc acc = 0).
    { clear -Hacc. unfold nacc. induction acc as [|c acc IH]; auto.
      pose proof (Hacc 0) as H0. cbn in H0. subst c. cbn. apply IH. intros k. exact (Hacc (S k)). }
    exists x, f.
    assert (He0 : exists tl, evals (tr st') = (x, f) :: tl).
    { clear -HT HS. pose proof (hs_t0 _ _ _ _ _ _ HS) as Ht0.
      induction HT as [|X F acc t y fy bb evs HT [tl IH] HR].
      - rewrite Ht0. cbn. eauto.
      - rewrite evals_app, IH. cbn. eauto. }
    destruct He0 as [tl He0]. rewrite He0. split; [reflexivity|].
    assert (HFne : F <> []) by (intros ->; discriminate HlF).
    pose proof (argmin_lt F HFne) as Ha.
    destruct (HXF (argmin F)) as [H1 H2]; [rewrite HlX, <- HlF; exact Ha|].
    split; auto. split; auto. split; [rewrite Hna; reflexivity|].
    pose proof (hc_X _ _ _ _ _ _ _ HC) as HX1. pose proof (hc_F _ _ _ _ _ _ _ HC) as HF1.
    destruct (s_return_all (hma A)); auto. f_equal. f_equal.
    - apply (@list_ext vec []); [rewrite repeat_length; exact HX1|]. intros i Hi.
      rewrite (proj1 (HXF i Hi)). symmetry. apply nth_repeat_lt. rewrite <- HX1. exact Hi.
    - apply (list_ext n0); [rewrite repeat_length; exact HF1|]. intros i Hi.
      rewrite (proj2 (HXF i ltac:(lia))). symmetry. apply nth_repeat_lt. rewrite <- HF1. exact Hi.
  Qed.

  (** ** C49 for hmc: the run terminates, and for valid arguments only user code can fail *)
  Theorem C49_hmc_raises A w a0 e st' :
    hma_jac A = JacNone -> ValidHM A -> exec (hmc_sample A) w a0 = (inr e, st') ->
    exists n, e = UserError n.
  Proof.
    intros Hj HV H. pose proof (wp_elim_exn _ _ _ _ _ _ (hmc_wp A w a0 Hj) H) as [_ HX].
    pose proof (C22_accepted_hmc A w a0 HV) as (ev & evs & Htr & _). rewrite H in Htr. cbn in Htr.
    destruct HX as [HX|HX]; [congruence|exact HX].
  Qed.
  Theorem C49_hmc_terminates A w a0 e st' :
    exec (hmc_sample A) w a0 = (inr e, st') -> e <> OutOfFuel.
  Proof.
    intros H. destruct (hma_jac A) eqn:Hj.
    - pose proof (wp_elim_exn _ _ _ _ _ _ (hmc_wp A w a0 Hj) H) as [HX _]. exact HX.
    - assert (HW : wp (hmc_sample A) (fun _ _ => True) (fun e _ => e <> OutOfFuel) (mkSt w [] a0)).
      { apply wp_hmc_start; [intros ? ? ? ? ?; auto|discriminate|]. intros; congruence. }
      exact (wp_elim_exn _ _ _ _ _ _ HW H).
    - assert (HW : wp (hmc_sample A) (fun _ _ => True) (fun e _ => e <> OutOfFuel) (mkSt w [] a0)).
      { apply wp_hmc_start; [intros ? ? ? ? ?; auto|discriminate|]. intros rows steps x f s4 HS _.
        apply wp_bind. rewrite Hj. destruct (Z.to_nat (s_maxiter (hma A)) - 1) as [|m].
        - apply wp_ret. cbn. apply wp_bind, wp_ret, wp_ret. exact Logic.I.
        - cbn [hmc_loop]. apply wp_bind. unfold hmc_move.
          eapply wp_quietT; [apply quietT_randn_vec|]. intros p0 s1 _ _ _.
          apply wp_bind. unfold leapfrog. cbn [hm_jac hmc_jac]. apply wp_bind, wp_raise. discriminate. }
      exact (wp_elim_exn _ _ _ _ _ _ HW H).
  Qed.

  (** ** C38: a user-supplied gradient *)
  Theorem C38_recursion A w a0 :
    hma_jac A = JacFun -> ValidHM A -> (2 <= s_maxiter (hma A))%Z ->
    exists e st', exec (hmc_sample A) w a0 = (inr e, st') /\ ncalls (tr st') = 1 /\
      (e = RecursionError \/
       (* unless the first evaluation or the first callback raises *)
       exists n, e = UserError n).
  Proof.
    intros Hj HV Hm.
    assert (HW : wp (hmc_sample A) (fun _ _ => False)
      (fun e s => tr s = [] \/ (ncalls (tr s) = 1 /\ (e = RecursionError \/ exists n, e = UserError n)))
      (mkSt w [] a0)).
    { apply wp_hmc_start.
      - intros e s' Ht _ _; auto.
      - intros n s' Hc. right. split; eauto.
      - intros rows steps x f s4 HS _. apply wp_bind. rewrite Hj.
        destruct (Z.to_nat (s_maxiter (hma A)) - 1) as [|m] eqn:Hmm; [lia|].
        cbn [hmc_loop]. apply wp_bind. unfold hmc_move.
        eapply wp_quietT; [apply quietT_randn_vec|]. intros p0 s1 Ht1 _ _.
        apply wp_bind. unfold leapfrog. cbn [hm_jac hmc_jac]. apply wp_bind, wp_raise.
        right. rewrite Ht1, (hs_t0 _ _ _ _ _ _ HS). cbn. rewrite ncalls_scbe0. auto. }
    pose proof (C22_accepted_hmc A w a0 HV) as (ev & evs & Htr & Hev).
    unfold wp in HW. unfold exec in *. destruct (hmc_sample A (mkSt w [] a0)) as [[r|e] s'] eqn:Hr;
      [contradiction|].
    exists e, s'. split; auto. cbn in Htr.
    destruct HW as [HW|HW]; [congruence|exact HW].
  Qed.
End PropHmc.
