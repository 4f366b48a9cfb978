(** C58 in binary64, and runs that meet its hypotheses. *)
From Coq Require Import Reals Lra Floats.
From Flocq Require Core.Raux.
From Verif Require Import Base Num NumR NumE NumF FBridge FLaws Env Common DE CPSO NA Mat CMAES VDCMA Hoare EvalRules
  Gen Steps Hist Runs CmaRun Best Inst HistFacts HistBest PropPop Laws Valid Safe Feas Trial Restart Flight Adapt Demo ExPop.
Open Scope nat_scope.

(** At most all points of a generation are parents. *)
Lemma FNum_parents (F : FloatFuns) (q : float) (p k : Z) :
  PrimFloat.ltb 0 q = true -> PrimFloat.leb q 1 = true -> (1 <= p <= 2 ^ 53)%Z ->
  @ntrunc (FNum F) (@nmul (FArith F) q (@nZ (FArith F) p)) = Some k -> (k <= p)%Z.
Proof.
  intros H0 H1 Hp. unfold nZ. cbn [ntrunc FNum FArith nmul nlit f_lit T num_arith].
  change (f_lit p 0) with (f_ofZ p). intros Ht.
  destruct (sf_trunc_some _ _ Ht) as [r Hr]. pose proof (sf_trunc_spec _ _ _ Hr Ht) as ->.
  assert (Ep : fe (f_ofZ p) = Fin (IZR p)) by (apply fe_ofZ; lia).
  rewrite fe_mul, Ep in Hr. rewrite fe_ltb in H0. rewrite fe_leb in H1.
  change (fe 0%float) with (Fin 0) in H0.
  assert (E1 : fe 1%float = Fin 1) by (change 1%float with (f_ofZ 1); apply fe_ofZ; lia). rewrite E1 in H1.
  assert (Hp0 : (0 < IZR p)%R) by (apply (IZR_lt 0); lia).
  assert (Hq : exists y, fe q = Fin y /\ (0 < y <= 1)%R).
  { destruct (fe q) as [y| | |]; try discriminate. exists y. cbn in H0, H1. rb. split; [reflexivity|lra]. }
  destruct Hq as (y & Hq & Hy). rewrite Hq in Hr. cbn [er_mul] in Hr.
  assert (Ha : er_leb (Fin 0) (Fin (y * IZR p)) = true) by (cbn; rb; nra).
  assert (Hb : er_leb (Fin (y * IZR p)) (Fin (IZR p)) = true) by (cbn; rb; nra).
  apply er_rnd_mono in Ha. apply er_rnd_mono in Hb.
  rewrite <- Ep in Hb at 1. rewrite er_rnd_fe, Ep in Hb.
  change (Fin 0) with (fe 0%float) in Ha. rewrite er_rnd_fe in Ha. change (fe 0%float) with (Fin 0) in Ha.
  rewrite Hr in Ha, Hb. cbn in Ha, Hb. rb. apply Ztrunc_le; assumption.
Qed.

Theorem C58_binary64 (F : FloatFuns) (E : Env (FNum F)) (HE : @EnvOK (FNum F) E)
    (HEig : @EighShape (FNum F) E) (HEmp : @EmptyShape (FNum F) E)
    (A : @CMAArgs (FNum F)) rows w a0 res st' :
  a_bounds (caa A) = D2 2 rows ->
  a_backend (caa A) <> Some "mpi"%string ->
  (a_popsize (caa A) <= 2 ^ 53)%Z ->
  exec (cmaes_minimize A) w a0 = (inl res, st') ->
  exists k S B h,
    @ntrunc (FNum F) (PrimFloat.mul (caa_muperc A) (f_ofZ (a_popsize (caa A)))) = Some k /\
    Adapt A rows (Z.to_nat k) (Z.to_nat (a_popsize (caa A))) (one_worker (a_workers (caa A)))
          (Z.to_nat (r_nit res)) S B (Some (r_x res, r_fun res)) (evals (tr st')) h (Some (r_status res)).
Proof.
  intros Hb Hm Hp Hx.
  pose proof (cmaes_run A w a0 ltac:(intros mode _; apply (EnvOK_mode HE))) as H.
  pose proof (wp_elim _ _ _ _ _ _ H Hx) as (P & HP & _).
  destruct (cpo_mu _ _ HP) as (k & Hk & _). destruct (cpo_muperc _ _ HP) as [H0 H1].
  pose proof (cpo_p1 _ _ HP) as Hp1.
  assert (Hle : (k <= a_popsize (caa A))%Z).
  { apply (FNum_parents F (caa_muperc A) _ k H0 H1); [lia|exact Hk]. }
  destruct (C58_adaptation HE HEig HEmp A rows k w a0 res st' Hb Hm Hk Hle Hx) as (S & B & h & HS).
  exists k, S, B, h. split; [exact Hk|exact HS].
Qed.

Lemma Demo_Eigh f : @EighShape (FNum DF) (DemoEnv DF f).
Proof.
  intros d C lam V [HC _] He. cbn in He. injection He as <- <-.
  assert (HC' : @length (list float) C = d) by exact HC. rewrite HC'.
  split; [rewrite map_length; apply seq_length|]. split; [rewrite map_length; apply seq_length|].
  apply Forall_map, Forall_forall. intros i _. rewrite map_length. apply seq_length.
Qed.
Lemma Demo_Empty f : @EmptyShape (FNum DF) (DemoEnv DF f).
Proof. intros n. cbn. apply repeat_length. Qed.

Definition cma_call (con : option string) : @CMAArgs (FNum DF) :=
  @mkCMAArgs (FNum DF)
    (@mkArgs (FNum DF) true (b11 DF) (Some (@D1 (FArith DF) [0.5; 0.75]%float)) true 3 4 None (-1)%float (-1)%float
             con 1 None false 1%float CbFun)
    0.5%float 0.5%float.
Definition w_cma : Script * unit :=
  (mkScript [] [0; 1; -0.5; 0.25; 1; 0.5; -1; -1; 1; 0; -0.25; 0.5; 0.5; 1; -1; -0.5; 1; 0.5; 0; -1; 0.25; 1; -0.5; 0]%float [] [], tt).
Definition run_cma (con : option string) :=
  @exec (FNum DF) (DemoEnv DF f_sphere) _ (@cmaes_minimize (FNum DF) (DemoEnv DF f_sphere) (cma_call con)) w_cma None.

(** Runs of three generations that return, with and without Penalize; in the first generation a
    point leaves the box; with Penalize it is evaluated on the bound. *)
Theorem C58_hypotheses con : In con [None; Some "Penalize"%string] ->
  (exists rows, a_bounds (caa (cma_call con)) = D2 2 rows) /\
  a_backend (caa (cma_call con)) <> Some "mpi"%string /\
  (a_popsize (caa (cma_call con)) <= 2 ^ 53)%Z /\
  exists res st', run_cma con = (inl res, st') /\ length (evals (tr st')) = 12 /\ r_nit res = 3%Z /\ r_status res = (-1)%Z /\
    PrimFloat.ltb 1 (nth 1 (fst (nth 0 (evals (tr st')) ([], 0%float))) 0%float) =
      match con with None => true | _ => false end /\
    PrimFloat.ltb (r_fun res) (snd (nth 0 (evals (tr st')) ([], 0%float))) = true.
Proof.
  intros Hc. split; [eexists; reflexivity|]. split; [discriminate|]. split; [cbn; lia|].
  set (Q := fun (r : @OptRes (FNum DF)) (t : @St (FNum DF) (DemoEnv DF f_sphere)) =>
    Nat.eqb (length (evals (tr t))) 12 && Z.eqb (r_nit r) 3 && Z.eqb (r_status r) (-1) &&
    Bool.eqb (PrimFloat.ltb 1 (nth 1 (fst (nth 0 (evals (tr t)) ([], 0%float))) 0%float))
             (match con with None => true | _ => false end) &&
    PrimFloat.ltb (r_fun r) (snd (nth 0 (evals (tr t)) ([], 0%float)))).
  assert (HQ : match run_cma con with (inl r, t) => Q r t | _ => false end = true)
    by (destruct Hc as [<-|[<-|[]]]; vm_compute; reflexivity).
  clear Hc. destruct (run_cma con) as [[r|e] t]; [|discriminate]. exists r, t. split; [reflexivity|].
  unfold Q in HQ. rewrite !andb_true_iff, Nat.eqb_eq, !Z.eqb_eq, Bool.eqb_true_iff in HQ. tauto.
Qed.

Theorem C58_runs con : In con [None; Some "Penalize"%string] ->
  exists rows res st' S B h, run_cma con = (inl res, st') /\
    @Adapt (FNum DF) (DemoEnv DF f_sphere) (cma_call con) rows 2 4 true 3 S B
           (Some (r_x res, r_fun res)) (evals (tr st')) h (Some (-1)%Z).
Proof.
  intros Hc. destruct (C58_hypotheses con Hc) as ((rows & Hb) & Hm & Hp & res & st' & Hx & _ & Hn & Hst & _).
  destruct (C58_binary64 DF (DemoEnv DF f_sphere) (DemoEnv_OK DF f_sphere) (Demo_Eigh _) (Demo_Empty _)
              (cma_call con) rows w_cma None res st' Hb Hm Hp Hx) as (k & S & B & h & Hk & HS).
  assert (Hk2 : k = 2%Z) by (vm_compute in Hk; injection Hk as <-; reflexivity). subst k.
  rewrite Hn, Hst in HS. exists rows, res, st', S, B, h. split; [exact Hx|exact HS].
Qed.

(** A run of four generations with Penalize from an [x0] outside the box: the penalty is in use (the
    value of the result is larger than every value of the objective). *)
Definition cma_call_out : @CMAArgs (FNum DF) :=
  @mkCMAArgs (FNum DF)
    (@mkArgs (FNum DF) true (b11 DF) (Some (@D1 (FArith DF) [3; 0.75]%float)) true 4 4 None (-1)%float (-1)%float
             (Some "Penalize"%string) 1 None false 1%float CbFun)
    0.5%float 0.5%float.
Definition w_cma_out : Script * unit :=
  (mkScript [] [0; 1; -0.5; 0.25; 1; 0.5; -1; -1; 1; 0; -0.25; 0.5; 0.5; 1; -1; -0.5; 1; 0.5; 0; -1; 0.25; 1; -0.5; 0;
                1; 0.5; 0.25; 0.25; -0.5; -0.5; 0; 0.125]%float [] [], tt).
Theorem C58_penalized_runs :
  exists rows res st' S B h,
    a_bounds (caa cma_call_out) = D2 2 rows /\
    @exec (FNum DF) (DemoEnv DF f_sphere) _ (@cmaes_minimize (FNum DF) (DemoEnv DF f_sphere) cma_call_out) w_cma_out None
      = (inl res, st') /\
    Forall (fun e => PrimFloat.ltb (snd e) (r_fun res) = true) (evals (tr st')) /\
    @Adapt (FNum DF) (DemoEnv DF f_sphere) cma_call_out rows 2 4 true 4 S B
           (Some (r_x res, r_fun res)) (evals (tr st')) h (Some (-1)%Z).
Proof.
  set (run := @exec (FNum DF) (DemoEnv DF f_sphere) _ (@cmaes_minimize (FNum DF) (DemoEnv DF f_sphere) cma_call_out) w_cma_out None).
  set (Q := fun (r : @OptRes (FNum DF)) (t : @St (FNum DF) (DemoEnv DF f_sphere)) =>
    Z.eqb (r_nit r) 4 && Z.eqb (r_status r) (-1) && forallb (fun e => PrimFloat.ltb (snd e) (r_fun r)) (evals (tr t))).
  assert (HQ : match run with (inl r, t) => Q r t | _ => false end = true) by (vm_compute; reflexivity).
  destruct run as [[r|e] t] eqn:Hx; [|discriminate]. unfold Q in HQ. rewrite !andb_true_iff, !Z.eqb_eq in HQ.
  destruct HQ as [[Hn Hst] HF].
  destruct (C58_binary64 DF (DemoEnv DF f_sphere) (DemoEnv_OK DF f_sphere) (Demo_Eigh _) (Demo_Empty _)
              cma_call_out [[-1; 1]; [-1; 1]]%float w_cma_out None r t eq_refl ltac:(discriminate) ltac:(cbn; lia) Hx)
    as (k & S & B & h & Hk & HS).
  assert (Hk2 : k = 2%Z) by (vm_compute in Hk; injection Hk as <-; reflexivity). subst k.
  rewrite Hn, Hst in HS. exists [[-1; 1]; [-1; 1]]%float, r, t, S, B, h. split; [reflexivity|]. split; [reflexivity|].
  split; [|exact HS]. apply Forall_forall. intros e He. rewrite forallb_forall in HF. apply HF, He.
Qed.
