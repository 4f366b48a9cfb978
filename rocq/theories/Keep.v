(** Programs that leave the caller's array alone (C24 for na, cmaes, vdcma; C51 for the samplers). *)
From Verif Require Import Base Num Env Common DE CPSO NA Mat CMAES VDCMA Sample Hoare EvalRules Gen
  Steps Inst Valid Chain Mcmc Hmc.

Section Keeps.
  Context {N : Num} {E : Env N}.

  Definition keeps {A} (m : M A) : Prop := forall s, argbuf (snd (m s)) = argbuf s.

  Lemma keeps_ret {A} (a : A) : keeps (ret a).
  Proof. intros s; reflexivity. Qed.
  Lemma keeps_raise {A} e : keeps (@raise _ _ A e).
  Proof. intros s; reflexivity. Qed.
  Lemma keeps_bind {A B} (m : M A) (k : A -> M B) :
    keeps m -> (forall a, keeps (k a)) -> keeps (bind m k).
  Proof.
    intros H1 H2 s. unfold bind. specialize (H1 s). destruct (m s) as [[a|e] s']; cbn in *; auto.
    rewrite H2. exact H1.
  Qed.
  Lemma keeps_draw {A} (f : RNG -> A * RNG) : keeps (draw f).
  Proof. intros s. unfold draw. destruct (f (fst (rs s))); reflexivity. Qed.
  Lemma keeps_call_fun x : keeps (call_fun x).
  Proof. intros s. unfold call_fun. destruct (e_fun x (rs s)); reflexivity. Qed.
  Lemma keeps_call_cb X st : keeps (call_cb X st).
  Proof. intros s. unfold call_cb. destruct (e_cb X st (rs s)); reflexivity. Qed.
  Lemma keeps_call_scb X st : keeps (call_scb X st).
  Proof. intros s. unfold call_scb. destruct (e_scb X st (rs s)); reflexivity. Qed.
  Lemma keeps_mpi_bcast X : keeps (mpi_bcast X).
  Proof. intros s; reflexivity. Qed.
  Lemma keeps_mpi_allreduce X f : keeps (mpi_allreduce X f).
  Proof. intros s; reflexivity. Qed.
  Lemma keeps_seed o : keeps (seed o).
  Proof. destruct o; intros s; reflexivity. Qed.
  Lemma keeps_get_sched n : keeps (get_sched n).
  Proof. intros s; reflexivity. Qed.
  Lemma keeps_replicateM {A} n (m : M A) : keeps m -> keeps (replicateM n m).
  Proof.
    intros H; induction n as [|n IH]; cbn; [apply keeps_ret|].
    apply keeps_bind; auto. intros a. apply keeps_bind; auto. intros l. apply keeps_ret.
  Qed.
  Lemma keeps_mapM {A B} (f : A -> M B) l : (forall a, keeps (f a)) -> keeps (mapM f l).
  Proof.
    intros H; induction l as [|a l IH]; cbn; [apply keeps_ret|].
    apply keeps_bind; auto. intros b. apply keeps_bind; auto. intros bs. apply keeps_ret.
  Qed.
  Lemma keeps_foldM {A B} (f : A -> B -> M A) acc l :
    (forall a b, keeps (f a b)) -> keeps (foldM f acc l).
  Proof.
    intros H; revert acc; induction l as [|b l IH]; intros acc; cbn; [apply keeps_ret|].
    apply keeps_bind; auto.
  Qed.
  Lemma keeps_when b m : keeps m -> keeps (when b m).
  Proof. intros H; unfold when; destruct b; auto. apply keeps_ret. Qed.
  Lemma keeps_raise_if b e : keeps (raise_if b e).
  Proof. unfold raise_if; destruct b; [apply keeps_raise|apply keeps_ret]. Qed.
  Lemma keeps_orelse {A} (o : option A) e : keeps (orelse o e).
  Proof. unfold orelse; destruct o; [apply keeps_ret|apply keeps_raise]. Qed.
End Keeps.

Create HintDb keeps.
Ltac k1 :=
  repeat first
    [ apply keeps_ret | apply keeps_raise | apply keeps_draw | apply keeps_call_fun
    | apply keeps_call_cb | apply keeps_call_scb | apply keeps_mpi_bcast | apply keeps_mpi_allreduce
    | apply keeps_seed | apply keeps_get_sched
    | solve [auto 1 with keeps nocore]
    | apply keeps_bind; [|intro]
    | apply keeps_replicateM | (apply keeps_mapM; intro) | (apply keeps_foldM; intro; intro)
    | apply keeps_when | apply keeps_raise_if | apply keeps_orelse
    | match goal with
      | |- keeps (let _ := _ in _) => cbn zeta
      | |- keeps (match ?x with _ => _ end) => destruct x
      | |- keeps ((match ?x with _ => _ end) _) => destruct x
      end ].

Section Solvers.
  Context {N : Num} {E : Env N}.

  Lemma keeps_eval_kindM sync w b : keeps (eval_kindM sync w b).
  Proof.
    unfold eval_kindM. k1.
  Qed.
  Lemma keeps_np_argmin v : keeps (np_argmin v).
  Proof. unfold np_argmin. k1. Qed.
  Lemma keeps_eval_pop m X : keeps (eval_pop m X).
  Proof. unfold eval_pop, eval_serial, eval_joblib, eval_mpi. k1. Qed.
  Lemma keeps_uniform lo hi : keeps (uniform lo hi).
  Proof. unfold uniform, rand. k1. Qed.
  Hint Resolve keeps_uniform keeps_eval_pop keeps_np_argmin keeps_eval_kindM : keeps.
  Lemma keeps_uniform_vec lo hi : keeps (uniform_vec lo hi).
  Proof. unfold uniform_vec, urange, uniform_row. k1. Qed.
  Lemma keeps_uniform1 lo hi : keeps (uniform1 lo hi).
  Proof. unfold uniform1, urange. k1. Qed.
  Lemma keeps_uniform_mat p lo hi : keeps (uniform_mat p lo hi).
  Proof. unfold uniform_mat, urange, uniform_row. k1. Qed.
  Hint Resolve keeps_uniform1 keeps_uniform_mat : keeps.
  Lemma keeps_rand_mat p d : keeps (rand_mat p d).
  Proof. unfold rand_mat, rand. k1. Qed.
  Lemma keeps_randn_vec d : keeps (randn_vec d).
  Proof. unfold randn_vec, randn. k1. Qed.
  Hint Resolve keeps_uniform_vec keeps_rand_mat keeps_randn_vec : keeps.
  Lemma keeps_lhs p d lo hi : keeps (lhs p d lo hi).
  Proof. unfold lhs, perm. k1. Qed.
  Lemma keeps_selection_async c xb xbf x xf xt ft i : keeps (selection_async c xb xbf x xf xt ft i).
  Proof. unfold selection_async. k1. Qed.
  Lemma keeps_selection_sync it c xb x xf mx xt ft ev :
    (forall X, keeps (ev X)) -> keeps (selection_sync it c xb x xf mx xt ft ev).
  Proof. intros H. unfold selection_sync. apply keeps_bind; [apply H|intro]. k1. Qed.
  Lemma keeps_rec_write a b c d e f g : keeps (rec_write a b c d e f g).
  Proof. unfold rec_write, rec_put. k1. Qed.
  Lemma keeps_rec_alloc a b c d : keeps (rec_alloc a b c d).
  Proof. unfold rec_alloc, rec_nout. k1. Qed.
  Lemma keeps_unpack_bounds b : keeps (unpack_bounds b).
  Proof. unfold unpack_bounds. k1. Qed.
  Hint Resolve keeps_lhs keeps_selection_async keeps_selection_sync keeps_rec_write keeps_rec_alloc
    keeps_unpack_bounds : keeps.

  Lemma keeps_drive {S} (D : Drv S) cb fl it s :
    (forall it s, keeps (d_step D it s)) -> (forall it s, keeps (d_post D it s)) ->
    keeps (drive D cb fl it s).
  Proof.
    intros H1 H2. revert it s. induction fl as [|k IH]; intros it s; cbn [drive]; [k1|].
    cbn zeta. apply keeps_bind; [apply H1|]. intros [s' st]. apply keeps_bind; [k1|]. intros _.
    destruct st as [c|].
    - unfold result. k1.
    - apply keeps_bind; auto.
  Qed.

  Lemma keeps_check_pop a : keeps (check_pop a).
  Proof. unfold check_pop. k1. Qed.
  Lemma keeps_seed_and_cb a : keeps (seed_and_cb a).
  Proof. unfold seed_and_cb. k1. Qed.
  Lemma keeps_check_updating u : keeps (check_updating u).
  Proof. unfold check_updating. k1. Qed.
  Hint Resolve keeps_check_pop keeps_seed_and_cb keeps_check_updating : keeps.

  (** *** na *)
  Lemma keeps_na_axis d mask xk U acc j : keeps (na_axis d mask xk U acc j).
  Proof. unfold na_axis. k1. Qed.
  Hint Resolve keeps_na_axis : keeps.
  Lemma keeps_na_eval P X : keeps (na_eval P X).
  Proof. unfold na_eval. k1. Qed.
  Hint Resolve keeps_na_eval : keeps.
  Lemma keeps_na_step P it s : keeps (na_step P it s).
  Proof. unfold na_step, na_mutation, na_one. k1. Qed.
  Theorem keeps_na A : keeps (na_minimize A).
  Proof.
    unfold na_minimize, na. k1. apply keeps_drive; intros; cbn [d_step d_post na_drv].
    - apply keeps_na_step.
    - k1.
  Qed.

(** *** cmaes, vdcma *)
  Lemma keeps_cma_eval P X : keeps (cma_eval P X).
  Proof. unfold cma_eval. k1. Qed.
  Hint Resolve keeps_cma_eval : keeps.
  Lemma keeps_cma_fitness P arx xm xo sg dc it pen : keeps (cma_fitness P arx xm xo sg dc it pen).
  Proof. unfold cma_fitness, penalize. k1. Qed.
  Hint Resolve keeps_cma_fitness : keeps.
  Lemma keeps_cma_record P it v f r : keeps (cma_record P it v f r).
  Proof. unfold cma_record. k1. Qed.
  Lemma keeps_hist_set P it v h : keeps (hist_set P it v h).
  Proof. unfold hist_set. k1. Qed.
  Lemma keeps_cma_sample P s : keeps (cma_sample P s).
  Proof. unfold cma_sample. k1. Qed.
  Lemma keeps_vd_sample P s : keeps (vd_sample P s).
  Proof. unfold vd_sample. k1. Qed.
  Hint Resolve keeps_cma_record keeps_hist_set keeps_cma_sample keeps_vd_sample : keeps.
  Lemma keeps_cma_step P it s : keeps (cma_step P it s).
  Proof. unfold cma_step. k1. Qed.
  Lemma keeps_vd_step P it s : keeps (vd_step P it s).
  Proof. unfold vd_step. cbn zeta. k1. Qed.
  Lemma keeps_cma_check A : keeps (cma_check A).
  Proof. unfold cma_check. k1. Qed.
  Lemma keeps_cma_setup A : keeps (cma_setup A).
  Proof. unfold cma_setup, cma_cons_check. k1. Qed.
  Lemma keeps_cma_alloc a : keeps (cma_alloc a).
  Proof. unfold cma_alloc. k1. Qed.
  Hint Resolve keeps_cma_check keeps_cma_setup keeps_cma_alloc : keeps.
  Theorem keeps_cmaes A : keeps (cmaes_minimize A).
  Proof.
    unfold cmaes_minimize, cmaes. k1. apply keeps_drive; intros; cbn [d_step d_post cma_drv].
    - apply keeps_cma_step.
    - k1.
  Qed.
  Theorem keeps_vdcma A : keeps (vdcma_minimize A).
  Proof.
    unfold vdcma_minimize, vdcma. k1. apply keeps_drive; intros; cbn [d_step d_post vd_drv].
    - apply keeps_vd_step.
    - k1.
  Qed.

  (** *** mcmc, hmc *)
  Lemma keeps_s_check_x0 a : keeps (s_check_x0 a).
  Proof. unfold s_check_x0. k1. Qed.
  Lemma keeps_s_seed_cb a : keeps (s_seed_cb a).
  Proof. unfold s_seed_cb. k1. Qed.
  Lemma keeps_s_first a lo hi : keeps (s_first a lo hi).
  Proof. unfold s_first. k1. Qed.
  Lemma keeps_s_first_cb a x f : keeps (s_first_cb a x f).
  Proof. unfold s_first_cb. k1. Qed.
  Lemma keeps_s_cb a c : keeps (s_cb a c).
  Proof. unfold s_cb. k1. Qed.
  Hint Resolve keeps_s_check_x0 keeps_s_seed_cb keeps_s_first keeps_s_first_cb keeps_s_cb
    : keeps.
  Lemma keeps_mc_move P j c : keeps (mc_move P j c).
  Proof. unfold mc_move, mc_propose, rand. k1. Qed.
  Hint Resolve keeps_mc_move : keeps.
  Lemma keeps_mc_inner P js c : keeps (mc_inner P js c).
  Proof. revert c; induction js as [|j js IH]; intros c; cbn [mc_inner]; k1. Qed.
  Hint Resolve keeps_mc_inner : keeps.
  Lemma keeps_mc_outer P fl c : keeps (mc_outer P fl c).
  Proof. revert c; induction fl as [|k IH]; intros c; cbn [mc_outer]; k1. Qed.
  Hint Resolve keeps_mc_outer : keeps.
  Lemma keeps_count_fun nf x : keeps (count_fun nf x).
  Proof. unfold count_fun. k1. Qed.
  Hint Resolve keeps_count_fun : keeps.
  Lemma keeps_hmc_jac j h nf q : keeps (hmc_jac j h nf q).
  Proof. unfold hmc_jac, numerical_gradient, ng_one. k1. Qed.
  Hint Resolve keeps_hmc_jac : keeps.
  Lemma keeps_leap_loop j h step n q p nf : keeps (leap_loop (hmc_jac j h) step n q p nf).
  Proof. revert q p nf; induction n as [|k IH]; intros q p nf; cbn [leap_loop]; k1. Qed.
  Hint Resolve keeps_leap_loop : keeps.
  Lemma keeps_hmc_move P cn : keeps (hmc_move P cn).
  Proof. unfold hmc_move, leapfrog, rand. k1. Qed.
  Hint Resolve keeps_hmc_move : keeps.
  Lemma keeps_hmc_loop P n cn : keeps (hmc_loop P n cn).
  Proof. revert cn; induction n as [|k IH]; intros cn; cbn [hmc_loop]; k1. Qed.
  Hint Resolve keeps_hmc_loop : keeps.

  (** ** C24 for the methods without aliasing, whatever the outcome of the run *)
  Theorem C24_unchanged_any :
    (forall A w a0 r st', exec (na_minimize A) w a0 = (r, st') -> argbuf st' = a0) /\
    (forall A w a0 r st', exec (cmaes_minimize A) w a0 = (r, st') -> argbuf st' = a0) /\
    (forall A w a0 r st', exec (vdcma_minimize A) w a0 = (r, st') -> argbuf st' = a0).
  Proof.
    repeat split; intros A w a0 r st' H;
      [pose proof (keeps_na A (mkSt w [] a0)) as K|pose proof (keeps_cmaes A (mkSt w [] a0)) as K
      |pose proof (keeps_vdcma A (mkSt w [] a0)) as K]; unfold exec in H; rewrite H in K; exact K.
  Qed.

  (** ** C51: an ndarray given as stepsize is rescaled in place by every call *)
  Definition rescaled (v : vec) (rows : matrix) : vec :=
    map2 (fun s r => nmul s (nmul (nlit 5 (-1)) (nsub (nth 1 r n0) (nth 0 r n0)))) v rows.

  Definition arg_after (a : SArgs) (a0 : option matrix) : option matrix :=
    match s_stepsize a, s_bounds a with
    | D1 v, D2 _ rows => if s_stepsize_array a then Some [rescaled v rows] else a0
    | _, _ => a0
    end.

  Lemma wp_keeps {A} (m : M A) s (Q : A -> St -> Prop) (X : Exn -> St -> Prop) :
    keeps m -> (forall a s', argbuf s' = argbuf s -> Q a s') -> (forall e s', X e s') -> wp m Q X s.
  Proof.
    intros H HQ HX. unfold wp. specialize (H s). destruct (m s) as [[a|e] s']; auto.
  Qed.

  Lemma rescaled_combine v rows :
    map2 (fun s0 lu => nmul s0 (nmul (nlit 5 (-1)) (nsub (snd lu) (fst lu)))) v
         (combine (lows rows) (ups rows)) = rescaled v rows.
  Proof.
    unfold rescaled. revert v. induction rows as [|r rows IH]; intros [|a v]; cbn; auto.
    f_equal. apply IH.
  Qed.

  Lemma wp_steps_arg a rows s (Q : vec -> St -> Prop) :
    s_bounds a = D2 2 rows -> (forall v s', argbuf s' = arg_after a (argbuf s) -> Q v s') ->
    wp (s_steps a (lows rows) (ups rows)) Q (fun _ _ => True) s.
  Proof.
    intros Hb HQ. unfold s_steps, arg_after in *. rewrite Hb in *. cbn zeta.
    destruct (s_stepsize a) as [x|v|c m]; apply wp_bind, wp_raise_if; intros _; try exact Logic.I.
    - apply wp_bind, wp_when; [discriminate|intros _]. apply wp_ret. apply HQ. reflexivity.
    - rewrite rescaled_combine. apply wp_bind, wp_when; intros Ha; [apply wp_set_arg|]; apply wp_ret;
        apply HQ; rewrite Ha; reflexivity.
  Qed.

  Lemma wp_check_arg a s (Q : vec * vec -> St -> Prop) :
    (forall rows, s_bounds a = D2 2 rows -> Q (lows rows, ups rows) s) ->
    wp (s_check_x0 a) Q (fun _ _ => True) s.
  Proof. intros HQ. apply wp_s_check; [intros ? ? ? ? ?; exact Logic.I|]. intros rows Hb _. auto. Qed.

  Theorem C51_stepsize_mcmc A w a0 res st' :
    exec (mcmc_sample A) w a0 = (inl res, st') -> argbuf st' = arg_after (mca A) a0.
  Proof.
    intros H. refine (wp_elim _ (fun _ s => argbuf s = arg_after (mca A) a0) (fun _ _ => True) _ _ _ _ H).
    unfold mcmc_sample, mcmc_fuel. cbn zeta. apply wp_bind, wp_check_arg. intros rows Hb.
    apply wp_bind, wp_steps_arg; auto. intros v s1 Hs1. cbn in Hs1.
    match goal with |- wp ?m _ _ _ => assert (K : keeps m) by k1 end.
    apply wp_keeps; auto. intros r s' ->. exact Hs1.
  Qed.
  Theorem C51_stepsize_hmc A w a0 res st' :
    exec (hmc_sample A) w a0 = (inl res, st') -> argbuf st' = arg_after (hma A) a0.
  Proof.
    intros H. refine (wp_elim _ (fun _ s => argbuf s = arg_after (hma A) a0) (fun _ _ => True) _ _ _ _ H).
    unfold hmc_sample. cbn zeta. apply wp_bind, wp_check_arg. intros rows Hb.
    apply wp_bind, wp_raise_if; intros _; [exact Logic.I|].
    apply wp_bind, wp_steps_arg; auto. intros v s1 Hs1. cbn in Hs1.
    match goal with |- wp ?m _ _ _ => assert (K : keeps m) by k1 end.
    apply wp_keeps; auto. intros r s' ->. exact Hs1.
  Qed.
End Solvers.
