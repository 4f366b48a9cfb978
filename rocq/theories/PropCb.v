(** C50: the callbacks of the samplers. *)
From Verif Require Import Base Num Env Common DE Sample Hoare EvalRules Gen Steps Best Inst Disc Valid
  Accept Chain Mcmc PropMc Hmc PropHmc.

Section PropCb.
  Context {N : Num} {E : Env N} {L : OrdLaws num_arith}.

  (** What the k-th callback receives, in terms of the samples [X], [F] and decisions [acc] of the
      whole run: the current sample; the iteration; the acceptance ratio so far (1 for the first
      call); the best accepted sample so far, or the first sample if no accepted value is below
      infinity; and the record without the current sample (except in the first call). *)
  Record SCbOK (a : SArgs) (X : matrix) (F : vec) (acc : list bool) (k : nat) (x : vec) (st : SCbState)
      : Prop := {
    so_x : x = nth k X [];
    so_nit : scb_nit st = Z.of_nat (S k);
    so_acc : scb_accept st =
      (if (k =? 0)%nat then n1
       else ndiv (nN (length (filter (fun c => c) (firstn k acc)))) (nN (S k)));
    so_all : scb_all st =
      (if s_return_all a then Some (firstn (Nat.max 1 k) X, firstn (Nat.max 1 k) F) else None);
    so_best : exists i, i <= k /\ scb_x st = nth i X [] /\ scb_fun st = nth i F n0 /\
      ((i = 0 /\ forall j, j < k -> nth j acc false = true -> nltb (nth (S j) F n0) ninf = false) \/
       (exists i', i = S i' /\ nth i' acc false = true /\ nltb (nth i F n0) ninf = true /\
          forall j, j < k -> nth j acc false = true -> nltb (nth (S j) F n0) (nth i F n0) = false)) }.

  Lemma firstn_snoc_le {A} k (l : list A) b : k <= length l -> firstn k (l ++ [b]) = firstn k l.
  Proof.
    intros H. rewrite firstn_app. replace (k - length l) with 0 by lia. cbn. apply app_nil_r.
  Qed.

  Lemma SCbOK_snoc a X F acc k x st x' f' b :
    length X = S (length acc) -> length F = S (length acc) -> k < length X ->
    SCbOK a X F acc k x st -> SCbOK a (X ++ [x']) (F ++ [f']) (acc ++ [b]) k x st.
  Proof.
    intros HX HF Hk [H1 H2 H3 H4 (i & Hi & H5 & H6 & H7)].
    assert (Hmax : Nat.max 1 k <= length X) by (destruct k; cbn in *; lia).
    constructor; auto.
    - rewrite nth_snoc_lt by auto. exact H1.
    - rewrite firstn_snoc_le by lia. exact H3.
    - rewrite (firstn_snoc_le (Nat.max 1 k) X), (firstn_snoc_le (Nat.max 1 k) F); auto.
      rewrite HF, <- HX; exact Hmax.
    - exists i. rewrite (nth_snoc_lt X), (nth_snoc_lt F) by lia. repeat split; auto.
      destruct H7 as [[-> H7]|(i' & -> & H8 & H9 & H10)].
      + left. split; auto. intros j Hj Ha. rewrite nth_snoc_lt in Ha by lia.
        rewrite nth_snoc_lt by lia. auto.
      + right. exists i'. rewrite nth_snoc_lt by lia. repeat split; auto.
        intros j Hj Ha. rewrite nth_snoc_lt in Ha by lia. rewrite nth_snoc_lt by lia. auto.
  Qed.

  Lemma firstn_length_all {A} (l : list A) : firstn (length l) l = l.
  Proof. apply firstn_all. Qed.

  Lemma Traj_scbs a (R : StepRel) x0 f0 t0 X F acc t :
    (forall X F acc y fy b evs, R X F acc y fy b evs ->
       exists imin fmin, BestAcc (X ++ [if b then y else lastx X]) (F ++ [if b then fy else lastf F])
                           (acc ++ [b]) imin fmin /\
         scbs evs = scbs (scbe a (X ++ [if b then y else lastx X]) (F ++ [if b then fy else lastf F])
                           (acc ++ [b]) imin)) ->
    s_has_cb a = true -> scbs t0 = scbs (scbe0 a x0 f0) ->
    Traj R x0 f0 t0 X F acc t ->
    length (scbs t) = length X /\
    forall k, k < length X -> exists x st, nth_error (scbs t) k = Some (x, st) /\ SCbOK a X F acc k x st.
  Proof.
    intros HR Hcb H0. induction 1 as [|X F acc t y fy b evs HT [IH1 IH2] Hs].
    - rewrite H0. unfold scbe0. rewrite Hcb. cbn. split; auto. intros [|k] Hk; [|lia].
      eexists _, _. split; [reflexivity|]. constructor; cbn; auto.
      exists 0. repeat split; auto. left. split; auto. intros j Hj; lia.
    - pose proof (Traj_len _ _ _ _ _ _ _ _ HT) as [HlX HlF].
      destruct (HR _ _ _ _ _ _ _ Hs) as (imin & fmin & HB & He).
      rewrite scbs_app, He. unfold scbe. rewrite Hcb. cbn [scbs]. rewrite !app_length, IH1. cbn [length].
      split; auto. intros k Hk. destruct (Nat.eq_dec k (length X)) as [->|Hne].
      + eexists _, _. split.
        { rewrite nth_error_app2 by lia. rewrite IH1, Nat.sub_diag. reflexivity. }
        set (x' := if b then y else lastx X) in *. set (f' := if b then fy else lastf F) in *.
        constructor; cbn [scb_x scb_fun scb_nit scb_accept scb_all].
        * unfold lastx. f_equal. rewrite app_length; cbn; lia.
        * lia.
        * destruct (length X) as [|m] eqn:Hm; [discriminate HlX|]. cbn [Nat.eqb].
          rewrite (firstn_all2 (acc ++ [b])) by (rewrite app_length; cbn; lia). unfold nacc, nN. rewrite Nat.add_1_r. reflexivity.
        * destruct (s_return_all a); auto. rewrite Nat.add_sub.
          replace (Nat.max 1 (length X)) with (length X) by (rewrite HlX; cbn; lia).
          reflexivity.
        * exists imin. destruct HB as [HB1 HB2].
          destruct HB1 as [[-> ->]|(i' & -> & H1 & H2 & H3 & H4)].
          -- split; [lia|]. split; [reflexivity|]. split; [reflexivity|]. left. split; [reflexivity|].
             intros j _. apply HB2.
          -- assert (Hi : i' < length (acc ++ [b])).
             { destruct (Nat.lt_ge_cases i' (length (acc ++ [b]))); auto.
               rewrite nth_overflow in H1 by lia. discriminate. }
             rewrite app_length in Hi; cbn in Hi.
             split; [lia|]. split; [reflexivity|]. split; [reflexivity|]. right. exists i'. rewrite H2.
             repeat split; auto.
      + destruct (IH2 k ltac:(lia)) as (x & st & H1 & H2). exists x, st. split.
        * rewrite nth_error_app1 by (rewrite IH1; lia). exact H1.
        * apply SCbOK_snoc; auto; lia.
  Qed.

  Theorem C50_callbacks_mcmc A w a0 res st' :
    0 < nd_len (s_bounds (mca A)) -> s_has_cb (mca A) = true ->
    exec (mcmc_sample A) w a0 = (inl res, st') ->
    exists rows b steps X F acc Y,
      MetropolisChain A (tr st') rows b steps X F acc Y /\
      Z.of_nat (length (scbs (tr st'))) = s_maxiter (mca A) /\
      (forall k, k < length X -> exists x st,
         nth_error (scbs (tr st')) k = Some (x, st) /\ SCbOK (mca A) X F acc k x st) /\
      sr_all res = (if s_return_all (mca A) then Some (X, F) else None).
  Proof.
    intros Hd Hcb H. destruct (mcmc_run A w a0 res st' Hd H)
      as (rows & b & steps & x & f & t0 & X & F & acc & imin & fmin & HR).
    destruct (McRun_chain _ _ _ _ _ _ _ _ _ _ _ _ _ _ HR) as [Y HC].
    exists rows, b, steps, X, F, acc, Y. split; [exact HC|].
    destruct HR as [HS HT Hl HB ->]. cbn [sr_all].
    destruct (Traj_scbs (mca A) (mcR (mca A) (length rows) b steps) x f t0 X F acc (tr st')) with (4 := HT) as [H1 H2]; auto.
    - intros X' F' acc' y fy b' evs (_ & _ & _ & i & m & HB' & ->). exists i, m. split; auto.
      rewrite scbs_app. destruct (rejects (mca A)); reflexivity.
    - rewrite (ms_t0 _ _ _ _ _ _ _ HS). reflexivity.
    - repeat split; auto. rewrite H1. exact Hl.
  Qed.

  Theorem C50_callbacks_hmc A w a0 res st' :
    hma_jac A = JacNone -> s_has_cb (hma A) = true ->
    exec (hmc_sample A) w a0 = (inl res, st') ->
    exists rows steps X F acc,
      HmcChain A (tr st') rows steps X F acc /\
      Z.of_nat (length (scbs (tr st'))) = s_maxiter (hma A) /\
      (forall k, k < length X -> exists x st,
         nth_error (scbs (tr st')) k = Some (x, st) /\ SCbOK (hma A) X F acc k x st) /\
      sr_all res = (if s_return_all (hma A) then Some (X, F) else None).
  Proof.
    intros Hd Hcb H. destruct (wp_elim _ _ _ _ _ _ (hmc_wp A w a0 Hd) H)
      as (rows & steps & x & f & t0 & X & F & acc & HR).
    pose proof (HmRun_chain _ _ _ _ _ _ _ _ _ _ _ HR) as HC.
    exists rows, steps, X, F, acc. split; [exact HC|].
    destruct HR as [HS HT Hl ->]. cbn [sr_all].
    destruct (Traj_scbs (hma A) (hmR (hma A) (length rows) (Z.to_nat (hma_nleap A)) (hma_fd A) steps) x f t0 X F acc (tr st')) with (4 := HT) as [H1 H2]; auto.
    - intros X' F' acc' y fy b' evs (p0 & p & evl & tail & i & m & _ & _ & _ & _ & _ & Hm & Ht & HB' & ->).
      exists i, m. split; auto. rewrite !scbs_app, Hm, scbs_ok.
      destruct (rejects (hma A)); [destruct Ht as [_ ->]|destruct Ht as (U0 & u & _ & _ & ->)]; reflexivity.
    - rewrite (hs_t0 _ _ _ _ _ _ HS). reflexivity.
    - repeat split; auto. rewrite H1. exact Hl.
  Qed.

  (** Without a callback none is called. *)
  Lemma Traj_nocb a (R : StepRel) x0 f0 t0 X F acc t :
    (forall X F acc y fy b evs, R X F acc y fy b evs ->
       exists imin, scbs evs = scbs (scbe a (X ++ [if b then y else lastx X])
                          (F ++ [if b then fy else lastf F]) (acc ++ [b]) imin)) ->
    s_has_cb a = false -> scbs t0 = [] -> Traj R x0 f0 t0 X F acc t -> scbs t = [].
  Proof.
    intros HR Hcb H0. induction 1 as [|X F acc t y fy b evs HT IH Hs]; auto.
    destruct (HR _ _ _ _ _ _ _ Hs) as (imin & He). rewrite scbs_app, IH, He.
    unfold scbe. rewrite Hcb. reflexivity.
  Qed.
  Theorem C50_no_callback A w a0 res st' :
    0 < nd_len (s_bounds (mca A)) -> s_has_cb (mca A) = false ->
    exec (mcmc_sample A) w a0 = (inl res, st') -> scbs (tr st') = [].
  Proof.
    intros Hd Hcb H. destruct (mcmc_run A w a0 res st' Hd H)
      as (rows & b & steps & x & f & t0 & X & F & acc & imin & fmin & HR).
    destruct HR as [HS HT Hl HB ->].
    apply (Traj_nocb (mca A) (mcR (mca A) (length rows) b steps) x f t0 X F acc (tr st')) with (4 := HT); auto.
    - intros X' F' acc' y fy b' evs (_ & _ & _ & i & m & HB' & ->). exists i.
      rewrite scbs_app. destruct (rejects (mca A)); reflexivity.
    - rewrite (ms_t0 _ _ _ _ _ _ _ HS). cbn. unfold scbe0. rewrite Hcb. reflexivity.
  Qed.
End PropCb.
