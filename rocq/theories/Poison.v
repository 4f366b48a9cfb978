(** C82: a chain never leaves a NaN coordinate. *)
From Verif Require Import Base Num Env Common DE Sample Hoare EvalRules Gen Steps Best Inst Disc Valid Accept
  Chain Mcmc PropMc Hmc PropHmc HmcEq Wall.

Section Poison.
  Context {N : Num} {E : Env N} {L : OrdLaws num_arith} {W : WallLaws}.

  (** ** Specification *)
  (** coordinate [j] of [x] is NaN *)
  Definition NanAt (j : nat) (x : vec) : Prop := j < length x /\ ~ isnum (nth j x n0).
  (** a NaN coordinate of a sample is NaN in every later sample; a NaN coordinate of the starting point the
      caller gave is NaN in all samples and in the reported one *)
  Record Stuck (a : SArgs) (res : SampRes) (X : matrix) (F : vec) : Prop := {
    stuck_all : sr_all res = (if s_return_all a then Some (X, F) else None);
    stuck_len : length X = Z.to_nat (s_maxiter a);
    stuck_on : forall j k k', k <= k' -> k' < length X -> NanAt j (nth k X []) -> NanAt j (nth k' X []);
    stuck_x0 : forall j x0, s_x0 a = Some (D1 x0) -> NanAt j x0 -> Forall (NanAt j) X /\ NanAt j (sr_x res) }.

  Lemma stuck_intro a res X F :
    sr_all res = (if s_return_all a then Some (X, F) else None) -> length X = Z.to_nat (s_maxiter a) ->
    (forall j k, S k < length X -> NanAt j (nth k X []) -> NanAt j (nth (S k) X [])) ->
    (forall x0, s_x0 a = Some (D1 x0) -> nth 0 X [] = x0) ->
    (exists i, i < length X /\ sr_x res = nth i X []) -> Stuck a res X F.
  Proof.
    intros H1 H2 HS H0 (i & Hi & Hx).
    assert (Hon : forall j k k', k <= k' -> k' < length X -> NanAt j (nth k X []) -> NanAt j (nth k' X [])).
    { intros j k k' Hle Hlt HN. induction Hle as [|k' Hle IH]; [exact HN|]. apply HS; [exact Hlt|apply IH; lia]. }
    constructor; auto. intros j x0 Ha HN. rewrite <- (H0 x0 Ha) in HN. split.
    - apply Forall_forall. intros x Hin. destruct (In_nth _ _ [] Hin) as (k & Hk & <-). apply (Hon j 0); auto. lia.
    - rewrite Hx. apply (Hon j 0); auto. lia.
  Qed.

  Lemma map2_nth_T (f : T -> T -> T) j : forall u v : vec, j < length u -> j < length v ->
    nth j (map2 f u v) n0 = f (nth j u n0) (nth j v n0).
  Proof.
    induction j as [|j IH]; intros [|a u] [|b v] H1 H2; cbn in *; try lia; [reflexivity|]. apply IH; lia.
  Qed.
  Lemma drift_nan st q p j : length st = length q -> length p = length q -> NanAt j q -> NanAt j (drift st q p).
  Proof.
    intros H1 H2 [Hj Hn]. unfold NanAt, drift, vadd, vmul. rewrite !map2_length. split; [unfold vec in *; lia|].
    rewrite map2_nth_T by (rewrite ?map2_length; unfold vec in *; lia). apply wl_add_l, Hn.
  Qed.

  (** ** The end point of a trajectory *)
  Lemma leapfrog_nan h st n q0 p0 q p evs j : length st = length q0 -> length p0 = length q0 ->
    Leapfrog h st n q0 p0 q p evs -> NanAt j q0 -> NanAt j q.
  Proof.
    intros Hst Hp0 [(Q & P & G & V & _ & _ & _ & _ & _ & HG & HQ0 & HP0 & HQ & HP & -> & _)] HN.
    assert (Hi : forall i, i <= n -> length (at_ Q i) = length q0 /\ length (at_ P i) = length q0 /\ NanAt j (at_ Q i)).
    { induction i as [|i IH]; intro Hi.
      - rewrite HP0, half_kick_length; [rewrite HQ0; auto|congruence|].
        rewrite (gr_len _ _ _ _ (HG 0 ltac:(lia))), HQ0. congruence.
      - destruct (IH ltac:(lia)) as (I1 & I2 & I3).
        assert (HL : length (at_ Q (S i)) = length q0) by (rewrite HQ by lia; rewrite drift_length; congruence).
        split; [exact HL|]. split.
        + rewrite HP by lia. rewrite kick_length; [exact I2|congruence|].
          rewrite (gr_len _ _ _ _ (HG (S i) ltac:(lia))). congruence.
        + rewrite HQ by lia. apply drift_nan; congruence || exact I3. }
    destruct (Hi n ltac:(lia)) as (I1 & I2 & I3). rewrite Nat.add_1_r, HQ by lia.
    apply drift_nan; congruence || exact I3.
  Qed.

  (** ** The chains *)
  Theorem C82_mcmc A w a0 res st' : 0 < nd_len (s_bounds (mca A)) ->
    exec (mcmc_sample A) w a0 = (inl res, st') -> exists X F, Stuck (mca A) res X F.
  Proof.
    intros Hd H. destruct (mcmc_run A w a0 res st' Hd H)
      as (rows & b & steps & x & f & t0 & X & F & acc & imin & fmin & HR).
    destruct (McRun_chain _ _ _ _ _ _ _ _ _ _ _ _ _ _ HR) as [Y HC].
    exists X, F. pose proof (mh_X _ _ _ _ _ _ _ _ _ HC) as HX. pose proof (mh_acc _ _ _ _ _ _ _ _ _ HC) as Hacc.
    apply stuck_intro; auto.
    - destruct HR as [HS HT Hl HB ->]. reflexivity.
    - intros j k Hk HN. assert (Hk' : k < length acc) by (unfold matrix, vec in *; lia).
      destruct (mh_step _ _ _ _ _ _ _ _ _ HC k Hk') as (_ & (Hl & Hb) & Hn & _).
      destruct Hb as (z & _ & _ & Hz). destruct (nth k acc false).
      + rewrite (surjective_pairing (nth k Y ([], n0))) in Hn. injection Hn as Hn _. rewrite Hn.
        destruct HN as [Hj HN]. split; [rewrite Hl; exact Hj|]. rewrite Hz by exact Hj.
        destruct (_ && _); [apply wl_add_l, HN|exact HN].
      + injection Hn as Hn _. rewrite Hn. exact HN.
    - intros x0 H0. pose proof (mh_first _ _ _ _ _ _ _ _ _ HC) as H1. unfold first_sample in H1. rewrite H0 in H1. exact H1.
    - destruct HR as [HS HT Hl HB ->]. exists imin. split; [|reflexivity].
      pose proof (Traj_len _ _ _ _ _ _ _ _ HT) as [HlX _].
      destruct HB as [[[-> _]|(k & -> & Hk & _)] _]; [lia|].
      assert (k < length acc); [|lia].
      destruct (Nat.lt_ge_cases k (length acc)); auto. rewrite nth_overflow in Hk by lia. discriminate.
  Qed.

  Theorem C82_hmc A w a0 res st' : hma_jac A = JacNone ->
    exec (hmc_sample A) w a0 = (inl res, st') -> exists X F, Stuck (hma A) res X F.
  Proof.
    intros Hj H.
    destruct (C37_chain_hmc A w a0 res st' Hj H) as (rows & steps & X & F & acc & HC & _ & _ & HR & _ & _ & (i0 & Hi0 & Hx & _) & _).
    exists X, F. pose proof (hc_X _ _ _ _ _ _ _ HC) as HX. pose proof (hc_acc _ _ _ _ _ _ _ HC) as Hacc.
    destruct (hc_steps _ _ _ _ _ _ _ HC) as [Hsl _].
    apply stuck_intro; auto.
    - intros j k Hk HN. assert (Hk' : k < length acc) by (unfold matrix, vec in *; lia).
      destruct (hc_step _ _ _ _ _ _ _ HC k Hk') as (p0 & p & y & fy & evl & Hp0 & _ & HL & Hn & _).
      assert (Hd : length (nth k X []) = length rows).
      { pose proof (hc_dim _ _ _ _ _ _ _ HC) as HD. rewrite Forall_forall in HD. apply HD, nth_In. lia. }
      destruct (nth k acc false); injection Hn as Hn _; rewrite Hn; [|exact HN].
      refine (leapfrog_nan _ _ _ _ _ _ _ _ _ _ _ HL HN); congruence.
    - intros x0 H0. pose proof (hc_first _ _ _ _ _ _ _ HC) as H1. unfold first_sample in H1. rewrite H0 in H1. exact H1.
    - exists i0. auto.
  Qed.
End Poison.
