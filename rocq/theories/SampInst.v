(** The sampler theorems on the two concrete number systems: NaN laws, the acceptance rule in exact
    arithmetic (C33), and computed runs (C32-C36, C38, C40, C48-C51). *)
From Coq Require Import Reals Lra Floats FloatAxioms SpecFloat.
From Verif Require Import Base Num NumR NumE NumF Env Common DE CPSO Sample Hoare EvalRules Gen Steps
  Best Inst Disc Valid Accept Chain Mcmc PropMc Hmc PropHmc PropCb Demo ExPop HmcReal.

(** ** NaN is absorbing *)
#[export] Instance ENan : @NanLaws ENum.
Proof.
  constructor; intros [a| | |] [b| | |] H; cbn in *; intros Hn; apply H; try reflexivity; try discriminate;
    unfold isnum in *; cbn in *; try discriminate; apply Rleb_true; lra.
Qed.

Lemma f_isnum_nan F x : ~ @isnum (FArith F) x <-> Prim2SF x = S754_nan.
Proof.
  unfold isnum. cbn. rewrite f_leb_key.
  destruct (Prim2SF x) as [s|s| |s m e] eqn:Hx; cbn.
  - split; [|discriminate]. intros H; exfalso; apply H. reflexivity.
  - split; [|discriminate]. intros H; exfalso; apply H. destruct s; reflexivity.
  - split; auto; intros _ H; discriminate.
  - split; [|discriminate]. intros H; exfalso; apply H.
    destruct s; cbn; rewrite Z.compare_refl, ?Pos.compare_refl; reflexivity.
Qed.

#[export] Instance FNan F : @NanLaws (FNum F).
Proof.
  constructor; intros x y H; apply (proj1 (f_isnum_nan F _)) in H; apply (proj2 (f_isnum_nan F _));
    cbn; rewrite sub_spec; rewrite H.
  - reflexivity.
  - destruct (Prim2SF x); reflexivity.
Qed.

(** ** C33 in exact arithmetic *)
Open Scope R_scope.

Theorem C33_rule delta u : 0 <= u -> 
  metropolis (Fin delta) (Fin u) = true <-> u < exp (Rmin 0 delta).
Proof.
  intros Hu. unfold metropolis, pymin, n0, nZ. cbn.
  assert (Hmin : (if Rltb delta 0 then Fin delta else Fin 0) = Fin (Rmin 0 delta)).
  { unfold Rltb. destruct (Rlt_dec delta 0); f_equal; unfold Rmin; destruct (Rle_dec 0 delta); lra. }
  rewrite Hmin. destruct (Rlt_dec 0 u) as [H|H].
  - cbn. rewrite Rltb_true. split; intros H1.
    + rewrite <- (exp_ln u H). apply exp_increasing. exact H1.
    + rewrite <- (ln_exp (Rmin 0 delta)). apply ln_increasing; auto.
  - destruct (Req_EM_T u 0) as [->|]; [|lra]. cbn. split; auto. intros _. apply exp_pos.
Qed.

(** The acceptance probability: the draw is uniform on [0, 1), so by C33_rule a proposal is accepted
    with probability [accept_prob]. *)
Definition accept_prob (fx fy : R) : R := exp (Rmin 0 (fx - fy)).

Theorem C33_detailed_balance fx fy :
  0 < accept_prob fx fy <= 1 /\
  exp (- fx) * accept_prob fx fy = exp (- fy) * accept_prob fy fx.
Proof.
  unfold accept_prob. split.
  - split; [apply exp_pos|]. rewrite <- exp_0.
    destruct (Rmin_l 0 (fx - fy)) as [H|H]; [left; apply exp_increasing, H|right; rewrite H; auto].
  - rewrite <- !exp_plus. f_equal. unfold Rmin.
    destruct (Rle_dec 0 (fx - fy)), (Rle_dec 0 (fy - fx)); lra.
Qed.

Section RealRuns.
  Context {E : Env ENum}.
  Hypothesis HE : EnvOK.

  Lemma rand_unit u : isrand u -> exists r, u = Fin r /\ 0 <= r < 1.
  Proof.
    intros [r ->]. destruct (eo_rand HE r) as [H1 H2].
    destruct (fst (e_rand r)) as [v| | |]; cbn in H1, H2; try discriminate.
    exists v. split; auto. rewrite Rleb_true in H1. rewrite Rltb_true in H2. cbn in *. lra.
  Qed.

  Lemma LogNeg_real : LogNeg.
  Proof.
    intros u Hu. destruct (rand_unit u Hu) as (r & -> & H1 & H2). cbn.
    destruct (Rlt_dec 0 r) as [H|H]; cbn.
    - apply Rltb_true. rewrite <- ln_1. apply ln_increasing; auto.
    - destruct (Req_EM_T r 0); [reflexivity|lra].
  Qed.

  (** Every decision of a run follows the rule. *)
  Theorem C33_mcmc_decisions A w a0 res st' :
    (0 < nd_len (s_bounds (mca A)))%nat -> s_constraints (mca A) <> Some "Reject"%string ->
    exec (mcmc_sample A) w a0 = (inl res, st') ->
    exists rows b steps X F acc Y,
      MetropolisChain A (tr st') rows b steps X F acc Y /\
      forall k fx fy, (k < length acc)%nat -> nth k F n0 = Fin fx -> snd (nth k Y ([], n0)) = Fin fy ->
        exists u, isrand (Fin u) /\ 0 <= u < 1 /\ (nth k acc false = true <-> u < accept_prob fx fy).
  Proof.
    intros Hd Hr H. destruct (C32_chain_mcmc A w a0 res st' Hd H)
      as (rows & b & steps & X & F & acc & Y & HC & _).
    exists rows, b, steps, X, F, acc, Y. split; [exact HC|]. intros k fx fy Hk Hx Hy.
    assert (Hrej : rejects (mca A) = false).
    { unfold rejects. destruct (s_constraints (mca A)) as [c|]; auto.
      destruct (String.eqb_spec c "Reject"); [subst; congruence|reflexivity]. }
    pose proof (mh_step _ _ _ _ _ _ _ _ _ HC) as Hs. rewrite Hrej in Hs.
    destruct (Hs k Hk) as (_ & _ & _ & u & Hu & H4).
    destruct (rand_unit u Hu) as (r & -> & H1 & H2). exists r. split; [exact Hu|]. split; [lra|].
    rewrite H4, Hx, Hy. apply C33_rule. exact H1.
  Qed.

  (** For hmc the rule is applied to the total energy. *)
  Theorem C33_hmc_decisions A w a0 res st' :
    hma_jac A = JacNone -> s_constraints (hma A) <> Some "Reject"%string ->
    exec (hmc_sample A) w a0 = (inl res, st') ->
    exists rows steps X F acc,
      HmcChain A (tr st') rows steps X F acc /\
      forall k, (k < length acc)%nat -> exists p0 p y fy evl U0 u,
        Leapfrog (hma_fd A) steps (Z.to_nat (hma_nleap A)) (nth k X []) p0 y p evl /\
        In (nth k X [], U0) (evals (tr st')) /\ In (y, fy) (evals (tr st')) /\
        isrand (Fin u) /\ 0 <= u < 1 /\
        forall rU0 rfy rk0 rk, U0 = Fin rU0 -> fy = Fin rfy -> kinetic p0 = Fin rk0 -> kinetic p = Fin rk ->
          (nth k acc false = true <-> u < accept_prob (rU0 + rk0) (rfy + rk)).
  Proof.
    intros Hj Hr H. destruct (C37_chain_hmc A w a0 res st' Hj H)
      as (rows & steps & X & F & acc & HC & _).
    exists rows, steps, X, F, acc. split; [exact HC|]. intros k Hk.
    assert (Hrej : rejects (hma A) = false).
    { unfold rejects. destruct (s_constraints (hma A)) as [c|]; auto.
      destruct (String.eqb_spec c "Reject"); [subst; congruence|reflexivity]. }
    destruct (hc_step _ _ _ _ _ _ _ HC k Hk) as (p0 & p & y & fy & evl & _ & _ & HL & _ & H5).
    rewrite Hrej in H5. destruct H5 as (U0 & u & Hu & Hi1 & Hi2 & H4).
    destruct (rand_unit u Hu) as (r & -> & H1 & H2).
    exists p0, p, y, fy, evl, U0, r. repeat (split; [solve [auto|lra]|]).
    intros rU0 rfy rk0 rk HU0 Hfy Hk0 Hk1. unfold accept_prob. rewrite H4.
    assert (Hd : nsub (nadd (nsub U0 fy) (kinetic p0)) (kinetic p) = Fin (rU0 + rk0 - (rfy + rk))).
    { rewrite HU0, Hfy, Hk0, Hk1. cbn. f_equal. lra. }
    rewrite Hd. apply C33_rule. exact H1.
  Qed.
End RealRuns.
Close Scope R_scope.
