(** C25: an exception of user code ends the run at once, and no other exception hides one. *)
From Verif Require Import Base Num Env Common DE CPSO NA Mat CMAES VDCMA Sample Hoare.

Section Disc.
  Context {N : Num} {E : Env N}.

  (** What the events [evs] of a computation with outcome [r] look like. *)
  Definition Clean {A} (r : A + Exn) (evs : list event) : Prop :=
    match r with
    | inr (UserError n) =>
        exists pre e, evs = pre ++ [e] /\ failed e = Some n /\
                      Forall (fun e => failed e = None) pre
    | _ => Forall (fun e => failed e = None) evs
    end.

  (** A call in the trace is a call of the user's function, with the answer it gave. *)
  Definition genuine (e : event) : Prop :=
    match e with
    | EEval x r => exists w, fst (e_fun x w) = r
    | ECb X st r => exists w, fst (e_cb X st w) = r
    | ESCb x st r => exists w, fst (e_scb x st w) = r
    | _ => True
    end.

  Definition disc {A} (m : M A) : Prop :=
    forall s, exists evs, tr (snd (m s)) = tr s ++ evs /\ Clean (fst (m s)) evs /\ Forall genuine evs.

  Ltac nil_ev := intros s; exists []; cbn; rewrite app_nil_r; repeat split; auto; constructor.

  Lemma disc_ret {A} (a : A) : disc (ret a).
  Proof. nil_ev. Qed.

  Lemma disc_raise {A} e : (forall n, e <> UserError n) -> disc (@raise _ _ A e).
  Proof.
    intros H s; exists []; cbn; rewrite app_nil_r; split; auto. split; [|constructor].
    destruct e; auto. exfalso; eapply H; reflexivity.
  Qed.

  Lemma disc_bind {A B} (m : M A) (k : A -> M B) :
    disc m -> (forall a, disc (k a)) -> disc (bind m k).
  Proof.
    intros Hm Hk s. unfold bind. destruct (Hm s) as (e1 & He1 & H1 & G1).
    destruct (m s) as [[a|x] s1] eqn:Em; cbn in *.
    - destruct (Hk a s1) as (e2 & He2 & H2 & G2). exists (e1 ++ e2).
      rewrite He2, He1, app_assoc. split; [reflexivity|]. split; [|apply Forall_app; auto].
      unfold Clean in *. destruct (fst (k a s1)) as [b|[]]; try (apply Forall_app; auto).
      destruct H2 as (pre & e & -> & Hf & Hp). exists (e1 ++ pre), e.
      rewrite app_assoc. split; [reflexivity|]. split; [exact Hf|]. apply Forall_app; auto.
    - exists e1. split; [exact He1|]. split; [|exact G1]. unfold Clean in *. destruct x; auto.
  Qed.

  Lemma disc_draw {A} (f : RNG -> A * RNG) : disc (draw f).
  Proof.
    intros s; exists []. unfold draw. destruct (f (fst (rs s))); cbn. rewrite app_nil_r.
    repeat split; auto; constructor.
  Qed.

  Lemma disc_call_fun x : disc (call_fun x).
  Proof.
    intros s. unfold call_fun. destruct (e_fun x (rs s)) as [[y|n] w] eqn:He; cbn;
      eexists; (split; [reflexivity|]); split;
      try (constructor; [|constructor]; exists (rs s); rewrite He; reflexivity).
    - repeat constructor.
    - exists [], (EEval x (inr n)). auto.
  Qed.
  Lemma disc_call_cb X st : disc (call_cb X st).
  Proof.
    intros s. unfold call_cb. destruct (e_cb X st (rs s)) as [[n|] w] eqn:He; cbn;
      eexists; (split; [reflexivity|]); split;
      try (constructor; [|constructor]; exists (rs s); rewrite He; reflexivity).
    - exists [], (ECb X st (Some n)). auto.
    - repeat constructor.
  Qed.
  Lemma disc_call_scb X st : disc (call_scb X st).
  Proof.
    intros s. unfold call_scb. destruct (e_scb X st (rs s)) as [[n|] w] eqn:He; cbn;
      eexists; (split; [reflexivity|]); split;
      try (constructor; [|constructor]; exists (rs s); rewrite He; reflexivity).
    - exists [], (ESCb X st (Some n)). auto.
    - repeat constructor.
  Qed.
  Lemma disc_mpi_bcast X : disc (mpi_bcast X).
  Proof. intros s; eexists; split; [reflexivity|]. repeat constructor. Qed.
  Lemma disc_mpi_allreduce X f : disc (mpi_allreduce X f).
  Proof. intros s; eexists; split; [reflexivity|]. repeat constructor. Qed.
  Lemma disc_set_arg m : disc (set_arg m).
  Proof. nil_ev. Qed.
  Lemma disc_seed o : disc (seed o).
  Proof. destruct o; nil_ev. Qed.
  Lemma disc_get_sched n : disc (get_sched n).
  Proof. nil_ev. Qed.

  Lemma disc_replicateM {A} n (m : M A) : disc m -> disc (replicateM n m).
  Proof.
    intros H; induction n as [|n IH]; cbn; [apply disc_ret|].
    apply disc_bind; auto. intros a. apply disc_bind; auto. intros l. apply disc_ret.
  Qed.
  Lemma disc_mapM {A B} (f : A -> M B) l : (forall a, disc (f a)) -> disc (mapM f l).
  Proof.
    intros H; induction l as [|a l IH]; cbn; [apply disc_ret|].
    apply disc_bind; auto. intros b. apply disc_bind; auto. intros bs. apply disc_ret.
  Qed.
  Lemma disc_foldM {A B} (f : A -> B -> M A) acc l :
    (forall a b, disc (f a b)) -> disc (foldM f acc l).
  Proof.
    intros H; revert acc; induction l as [|b l IH]; intros acc; cbn; [apply disc_ret|].
    apply disc_bind; auto.
  Qed.
End Disc.

Ltac disc_leaf :=
  first [ apply disc_ret | (apply disc_raise; discriminate) | apply disc_draw | apply disc_call_fun
        | apply disc_call_cb | apply disc_call_scb | apply disc_mpi_bcast | apply disc_mpi_allreduce
        | apply disc_set_arg | apply disc_seed | apply disc_get_sched ].

Create HintDb disc.
Ltac dsc :=
  repeat first
    [ disc_leaf
    | solve [auto 1 with disc nocore]
    | apply disc_bind; [|intro]
    | apply disc_replicateM | (apply disc_mapM; intro) | (apply disc_foldM; intro; intro)
    | match goal with
      | |- disc (let _ := _ in _) => cbn zeta
      | |- disc (match ?x with _ => _ end) => destruct x
      | |- disc ((match ?x with _ => _ end) _) => destruct x
      end ].

Section All.
  Context {N : Num} {E : Env N}.

  Lemma disc_when b m : disc m -> disc (when b m).
  Proof. intros H; unfold when; destruct b; auto. apply disc_ret. Qed.
  Lemma disc_raise_if b e : (forall n, e <> UserError n) -> disc (raise_if b e).
  Proof. intros H; unfold raise_if; destruct b; [apply disc_raise, H|apply disc_ret]. Qed.
  Lemma disc_orelse {A} (o : option A) e : (forall n, e <> UserError n) -> disc (orelse o e).
  Proof. intros H; unfold orelse; destruct o; [apply disc_ret|apply disc_raise, H]. Qed.
End All.

Ltac d1 := repeat first
  [ progress dsc
  | (apply disc_when) | (apply disc_raise_if; discriminate) | (apply disc_orelse; first [discriminate | apply int_exn_user]) ].

Section Solvers.
  Context {N : Num} {E : Env N}.

  Lemma disc_eval_kindM sync w b : disc (eval_kindM sync w b).
  Proof.
    unfold eval_kindM. destruct (eval_kind sync w b) as [m|e] eqn:Ek; [apply disc_ret|].
    apply disc_raise. unfold eval_kind, wrapper_kind in Ek. intros n ->.
    repeat match type of Ek with (if ?b then _ else _) = _ => destruct b end; discriminate.
  Qed.
  Lemma disc_np_argmin v : disc (np_argmin v).
  Proof. unfold np_argmin. d1. Qed.
  Lemma disc_eval_pop m X : disc (eval_pop m X).
  Proof. unfold eval_pop, eval_serial, eval_joblib, eval_mpi. d1. Qed.
  Lemma disc_uniform lo hi : disc (uniform lo hi).
  Proof. unfold uniform, rand. d1. Qed.
  Hint Resolve disc_uniform disc_eval_pop disc_np_argmin disc_eval_kindM : disc.
  Lemma disc_urange lo hi : disc (urange lo hi).
  Proof. unfold urange. d1. Qed.
  Hint Resolve disc_urange : disc.
  Lemma disc_uniform1 lo hi : disc (uniform1 lo hi).
  Proof. unfold uniform1. d1. Qed.
  Lemma disc_uniform_row lo hi : disc (uniform_row lo hi).
  Proof. unfold uniform_row. d1. Qed.
  Hint Resolve disc_uniform1 disc_uniform_row : disc.
  Lemma disc_uniform_vec lo hi : disc (uniform_vec lo hi).
  Proof. unfold uniform_vec. d1. Qed.
  Lemma disc_rand_mat p d : disc (rand_mat p d).
  Proof. unfold rand_mat, rand. d1. Qed.
  Lemma disc_randn_vec d : disc (randn_vec d).
  Proof. unfold randn_vec, randn. d1. Qed.
  Hint Resolve disc_uniform_vec disc_rand_mat disc_randn_vec : disc.
  Lemma disc_lhs p d lo hi : disc (lhs p d lo hi).
  Proof. unfold lhs, perm. d1. Qed.
  Lemma disc_selection_async c xb xbf x xf xt ft i : disc (selection_async c xb xbf x xf xt ft i).
  Proof. unfold selection_async. d1. Qed.
  Lemma disc_selection_sync it c xb x xf mx xt ft ev :
    (forall X, disc (ev X)) -> disc (selection_sync it c xb x xf mx xt ft ev).
  Proof. intros H. unfold selection_sync. apply disc_bind; [apply H|intro]. d1. Qed.
  Lemma disc_rec_write a b c d e f g : disc (rec_write a b c d e f g).
  Proof. unfold rec_write, rec_put. d1. Qed.
  Lemma disc_rec_alloc a b c d : disc (rec_alloc a b c d).
  Proof. unfold rec_alloc, rec_nout. d1. Qed.
  Lemma disc_unpack_bounds b : disc (unpack_bounds b).
  Proof. unfold unpack_bounds. d1. Qed.
  Hint Resolve disc_lhs disc_selection_async disc_selection_sync disc_rec_write disc_rec_alloc
    disc_unpack_bounds : disc.

  Lemma disc_drive {S} (D : Drv S) cb fl it s :
    (forall it s, disc (d_step D it s)) -> (forall it s, disc (d_post D it s)) ->
    disc (drive D cb fl it s).
  Proof.
    intros H1 H2. revert it s. induction fl as [|k IH]; intros it s; cbn [drive]; [d1|].
    cbn zeta. apply disc_bind; [apply H1|]. intros [s' st]. apply disc_bind; [d1|]. intros _.
    destruct st as [c|].
    - unfold result. d1.
    - apply disc_bind; auto.
  Qed.

  Lemma disc_check_pop a : disc (check_pop a).
  Proof. unfold check_pop. d1. Qed.
  Lemma disc_seed_and_cb a : disc (seed_and_cb a).
  Proof. unfold seed_and_cb. d1. Qed.
  Lemma disc_check_updating u : disc (check_updating u).
  Proof. unfold check_updating. d1. Qed.
  Hint Resolve disc_check_pop disc_seed_and_cb disc_check_updating : disc.

  (** *** de *)
  Lemma disc_delete_shuffle p i : disc (delete_shuffle p i).
  Proof. unfold delete_shuffle, perm. d1. Qed.
  Lemma disc_np_randint n : disc (np_randint n).
  Proof. unfold np_randint, randint. d1. Qed.
  Lemma disc_de_cons c lo hi u : disc (de_cons c lo hi u).
  Proof. unfold de_cons. d1. Qed.
  Hint Resolve disc_delete_shuffle disc_np_randint disc_de_cons : disc.
  Lemma disc_de_step P sync it s : disc (de_step P sync it s).
  Proof.
    unfold de_step, de_sync, de_async, de_async_one, de_cands, de_cand1, set_alias. d1.
  Qed.
  Theorem disc_de A : disc (de_minimize A).
  Proof.
    unfold de_minimize, de. d1. apply disc_drive; intros; cbn [d_step d_post de_drv].
    - apply disc_de_step.
    - d1.
  Qed.

  (** *** cpso, pso *)
  Lemma disc_pso_step P sync it s : disc (pso_step P sync it s).
  Proof.
    unfold pso_step, pso_sync, pso_async, pso_async_one, pso_set_alias. d1.
  Qed.
  Lemma disc_pso_post P it s : disc (pso_post P it s).
  Proof. unfold pso_post, restart, pso_set_alias, uniform_mat. d1. Qed.
  Theorem disc_cpso A : disc (cpso_minimize A).
  Proof.
    unfold cpso_minimize, cpso. d1. apply disc_drive; intros; cbn [d_step d_post pso_drv].
    - apply disc_pso_step.
    - apply disc_pso_post.
  Qed.
  Theorem disc_pso A : disc (pso_minimize A).
  Proof. apply disc_cpso. Qed.

  (** *** na *)
  Lemma disc_na_axis d mask xk U acc j : disc (na_axis d mask xk U acc j).
  Proof. unfold na_axis. d1. Qed.
  Hint Resolve disc_na_axis : disc.
  Lemma disc_na_eval P X : disc (na_eval P X).
  Proof. unfold na_eval. d1. Qed.
  Hint Resolve disc_na_eval : disc.
  Lemma disc_na_step P it s : disc (na_step P it s).
  Proof. unfold na_step, na_mutation, na_one. d1. Qed.
  Theorem disc_na A : disc (na_minimize A).
  Proof.
    unfold na_minimize, na. d1. apply disc_drive; intros; cbn [d_step d_post na_drv].
    - apply disc_na_step.
    - d1.
  Qed.

  (** *** cmaes, vdcma *)
  Lemma disc_cma_eval P X : disc (cma_eval P X).
  Proof. unfold cma_eval. d1. Qed.
  Hint Resolve disc_cma_eval : disc.
  Lemma disc_cma_fitness P arx xm xo sg dc it pen : disc (cma_fitness P arx xm xo sg dc it pen).
  Proof. unfold cma_fitness, penalize. d1. Qed.
  Hint Resolve disc_cma_fitness : disc.
  Lemma disc_cma_record P it v f r : disc (cma_record P it v f r).
  Proof. unfold cma_record. d1. Qed.
  Lemma disc_hist_set P it v h : disc (hist_set P it v h).
  Proof. unfold hist_set. d1. Qed.
  Lemma disc_cma_sample P s : disc (cma_sample P s).
  Proof. unfold cma_sample. d1. Qed.
  Lemma disc_vd_sample P s : disc (vd_sample P s).
  Proof. unfold vd_sample. d1. Qed.
  Hint Resolve disc_cma_record disc_hist_set disc_cma_sample disc_vd_sample : disc.
  Lemma disc_cma_step P it s : disc (cma_step P it s).
  Proof. unfold cma_step. d1. Qed.
  Lemma disc_vd_step P it s : disc (vd_step P it s).
  Proof. unfold vd_step. cbn zeta. d1. Qed.
  Lemma disc_cma_check A : disc (cma_check A).
  Proof. unfold cma_check. d1. Qed.
  Lemma disc_cma_setup A : disc (cma_setup A).
  Proof. unfold cma_setup, cma_cons_check. d1. Qed.
  Lemma disc_cma_alloc a : disc (cma_alloc a).
  Proof. unfold cma_alloc. d1. Qed.
  Hint Resolve disc_cma_check disc_cma_setup disc_cma_alloc : disc.
  Theorem disc_cmaes A : disc (cmaes_minimize A).
  Proof.
    unfold cmaes_minimize, cmaes. d1. apply disc_drive; intros; cbn [d_step d_post cma_drv].
    - apply disc_cma_step.
    - d1.
  Qed.
  Theorem disc_vdcma A : disc (vdcma_minimize A).
  Proof.
    unfold vdcma_minimize, vdcma. d1. apply disc_drive; intros; cbn [d_step d_post vd_drv].
    - apply disc_vd_step.
    - d1.
  Qed.

  (** *** mcmc, hmc *)
  Lemma disc_s_check_x0 a : disc (s_check_x0 a).
  Proof. unfold s_check_x0. d1. Qed.
  Lemma disc_s_steps a lo hi : disc (s_steps a lo hi).
  Proof. unfold s_steps. cbn zeta. d1. Qed.
  Lemma disc_s_seed_cb a : disc (s_seed_cb a).
  Proof. unfold s_seed_cb. d1. Qed.
  Lemma disc_s_first a lo hi : disc (s_first a lo hi).
  Proof. unfold s_first. d1. Qed.
  Lemma disc_s_first_cb a x f : disc (s_first_cb a x f).
  Proof. unfold s_first_cb. d1. Qed.
  Lemma disc_s_cb a c : disc (s_cb a c).
  Proof. unfold s_cb. d1. Qed.
  Hint Resolve disc_s_check_x0 disc_s_steps disc_s_seed_cb disc_s_first disc_s_first_cb disc_s_cb
    : disc.
  Lemma disc_mc_move P j c : disc (mc_move P j c).
  Proof. unfold mc_move, mc_propose, rand. d1. Qed.
  Hint Resolve disc_mc_move : disc.
  Lemma disc_mc_inner P js c : disc (mc_inner P js c).
  Proof. revert c; induction js as [|j js IH]; intros c; cbn [mc_inner]; d1. Qed.
  Hint Resolve disc_mc_inner : disc.
  Lemma disc_mc_outer P fl c : disc (mc_outer P fl c).
  Proof. revert c; induction fl as [|k IH]; intros c; cbn [mc_outer]; d1. Qed.
  Hint Resolve disc_mc_outer : disc.
  Theorem disc_mcmc A : disc (mcmc_sample A).
  Proof. unfold mcmc_sample, mcmc_fuel. d1. Qed.

  Lemma disc_count_fun nf x : disc (count_fun nf x).
  Proof. unfold count_fun. d1. Qed.
  Hint Resolve disc_count_fun : disc.
  Lemma disc_hmc_jac j h nf q : disc (hmc_jac j h nf q).
  Proof. unfold hmc_jac, numerical_gradient, ng_one. d1. Qed.
  Hint Resolve disc_hmc_jac : disc.
  Lemma disc_leap_loop j h step n q p nf : disc (leap_loop (hmc_jac j h) step n q p nf).
  Proof. revert q p nf; induction n as [|k IH]; intros q p nf; cbn [leap_loop]; d1. Qed.
  Hint Resolve disc_leap_loop : disc.
  Lemma disc_hmc_move P cn : disc (hmc_move P cn).
  Proof. unfold hmc_move, leapfrog, rand. d1. Qed.
  Hint Resolve disc_hmc_move : disc.
  Lemma disc_hmc_loop P n cn : disc (hmc_loop P n cn).
  Proof. revert cn; induction n as [|k IH]; intros cn; cbn [hmc_loop]; d1. Qed.
  Hint Resolve disc_hmc_loop : disc.
  Theorem disc_hmc A : disc (hmc_sample A).
  Proof. unfold hmc_sample. d1. Qed.
End Solvers.

(** ** C25 *)

(** The public entry points of the package. *)
Section C25.
  Context {N : Num} {E : Env N}.

  Inductive AnyCall :=
  | RunDE (A : DEArgs) | RunCPSO (A : CPSOArgs) | RunPSO (A : PSOArgs) | RunNA (A : NAArgs)
  | RunCMAES (A : CMAArgs) | RunVDCMA (A : CMAArgs) | RunMCMC (A : MCArgs) | RunHMC (A : HMCArgs).
  Definition forget {A} (m : M A) : M unit := m ;;; ret tt.
  Definition any_run (c : AnyCall) : M unit :=
    match c with
    | RunDE A => forget (de_minimize A) | RunCPSO A => forget (cpso_minimize A)
    | RunPSO A => forget (pso_minimize A) | RunNA A => forget (na_minimize A)
    | RunCMAES A => forget (cmaes_minimize A) | RunVDCMA A => forget (vdcma_minimize A)
    | RunMCMC A => forget (mcmc_sample A) | RunHMC A => forget (hmc_sample A)
    end.

  Lemma disc_any c : disc (any_run c).
  Proof.
    destruct c; unfold any_run, forget; (apply disc_bind; [|intro; apply disc_ret]);
      [apply disc_de|apply disc_cpso|apply disc_pso|apply disc_na|apply disc_cmaes|apply disc_vdcma
      |apply disc_mcmc|apply disc_hmc].
  Qed.

  (** If any objective or callback call of the run raised, it is the last call of the run and the
      run raises that same exception. *)
  Theorem C25_propagates c w a0 r st' t1 e n t2 :
    exec (any_run c) w a0 = (r, st') -> tr st' = t1 ++ e :: t2 -> failed e = Some n ->
    t2 = [] /\ r = inr (UserError n).
  Proof.
    intros Hx Ht Hf. destruct (disc_any c (mkSt w [] a0)) as (evs & He & Hc & _).
    change (any_run c (mkSt w [] a0)) with (exec (any_run c) w a0) in *. rewrite Hx in He, Hc.
    cbn in He, Hc. subst evs. rewrite Ht in Hc.
    assert (HF : ~ Forall (fun e => failed e = None) (t1 ++ e :: t2)).
    { intros HF. apply Forall_app in HF. destruct HF as [_ HF]. inversion HF. congruence. }
    destruct r as [a|x]; cbn in Hc; [contradiction|].
    destruct x; try contradiction.
    destruct Hc as (pre & e' & Heq & Hf' & Hp).
    destruct t2 as [|e2 t2].
    - apply app_inj_tail in Heq. destruct Heq as [-> ->]. split; [reflexivity|]. congruence.
    - exfalso. destruct (@exists_last _ (e2 :: t2)) as (t2' & el & Hl); [discriminate|].
      rewrite Hl in Heq. rewrite app_comm_cons, app_assoc in Heq. apply app_inj_tail in Heq.
      destruct Heq as [Heq _]. rewrite <- Heq in Hp. apply Forall_app in Hp.
      destruct Hp as [_ Hp]. inversion Hp. congruence.
  Qed.

  (** Conversely a run raises an exception of user code only if the last call of user code raised
      it, and if the run returns (or fails otherwise) then no call of user code failed. *)
  Theorem C25_no_other c w a0 r st' :
    exec (any_run c) w a0 = (r, st') ->
    match r with
    | inr (UserError n) => exists t e, tr st' = t ++ [e] /\ failed e = Some n
    | _ => forall e, In e (tr st') -> failed e = None
    end.
  Proof.
    intros Hx. destruct (disc_any c (mkSt w [] a0)) as (evs & He & Hc & _).
    change (any_run c (mkSt w [] a0)) with (exec (any_run c) w a0) in *. rewrite Hx in He, Hc.
    cbn in He, Hc. subst evs.
    destruct r as [a|[]]; cbn in Hc; try (intros e He; rewrite Forall_forall in Hc; auto; fail).
    destruct Hc as (pre & e & -> & Hf & _). exists pre, e. auto.
  Qed.

  (** Every call recorded in the trace of a run is a call of the user's function that returned the
      recorded answer. *)
  Theorem C25_genuine c w a0 r st' :
    exec (any_run c) w a0 = (r, st') -> forall e, In e (tr st') -> genuine e.
  Proof.
    intros Hx. destruct (disc_any c (mkSt w [] a0)) as (evs & He & _ & Hg).
    change (any_run c (mkSt w [] a0)) with (exec (any_run c) w a0) in *. rewrite Hx in He.
    cbn in He. subst evs. rewrite Forall_forall in Hg. exact Hg.
  Qed.
End C25.
