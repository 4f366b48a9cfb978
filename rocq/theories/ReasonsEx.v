(** C70 in binary64, and runs that stop for different reasons. *)
From Coq Require Import Floats.
From Verif Require Import Base Num NumR NumE NumF FBridge FLaws Env Common DE CPSO NA Mat CMAES VDCMA Hoare EvalRules
  Gen Steps Hist Runs CmaRun Best Inst HistFacts HistBest PropPop PropCma Laws Valid Safe Feas Trial Restart Flight Adapt AdaptEx
  VAdapt VAdaptEx Reasons Demo ExPop.
Open Scope nat_scope.

Lemma FNum_k (F : FloatFuns) (E : Env (FNum F)) (HE : @EnvOK (FNum F) E) (c : @CmaCall (FNum F)) w a0 res st' :
  (a_popsize (caa (cma_cargs c)) <= 2 ^ 53)%Z -> exec (cma_run c) w a0 = (inl res, st') ->
  exists k, @ntrunc (FNum F) (PrimFloat.mul (caa_muperc (cma_cargs c)) (f_ofZ (a_popsize (caa (cma_cargs c))))) = Some k /\
    (k <= a_popsize (caa (cma_cargs c)))%Z.
Proof.
  intros Hp Hx.
  assert (HP : exists P, CMAParamsOf (cma_cargs c) P).
  { destruct c as [A|A].
    - pose proof (cmaes_run A w a0 ltac:(intros mode _; apply (EnvOK_mode HE))) as H.
      pose proof (wp_elim _ _ _ _ _ _ H Hx) as (P & HP & _). eauto.
    - pose proof (vdcma_run A w a0 ltac:(intros mode _; apply (EnvOK_mode HE))) as H.
      pose proof (wp_elim _ _ _ _ _ _ H Hx) as (P & HP & _). eauto. }
  destruct HP as (P & HP). destruct (cpo_mu _ _ HP) as (k & Hk & _). destruct (cpo_muperc _ _ HP) as [H0 H1].
  pose proof (cpo_p1 _ _ HP) as Hp1. exists k. split; [exact Hk|].
  apply (FNum_parents F (caa_muperc (cma_cargs c)) _ k H0 H1); [lia|exact Hk].
Qed.

Theorem C70_binary64 (F : FloatFuns) (E : Env (FNum F)) (HE : @EnvOK (FNum F) E)
    (HEig : @EighShape (FNum F) E) (HEmp : @EmptyShape (FNum F) E) (c : @CmaCall (FNum F)) rows w a0 res st' :
  let A := cma_cargs c in
  a_bounds (caa A) = D2 2 rows ->
  a_backend (caa A) <> Some "mpi"%string ->
  (a_popsize (caa A) <= 2 ^ 53)%Z ->
  exec (cma_run c) w a0 = (inl res, st') ->
  exists k,
    @ntrunc (FNum F) (PrimFloat.mul (caa_muperc A) (f_ofZ (a_popsize (caa A)))) = Some k /\
    match c with
    | CallCMA _ => exists D G h, @Start (FNum F) E A rows (D 0) /\
        Course (CmaGen A (length rows) (Z.to_nat k) (Z.to_nat (a_popsize (caa A)))) D G h
               (Z.to_nat (r_nit res)) (Some (r_status res)) /\ r_fun res = last h 0%float
    | CallVD _ => exists D G h, @VStart (FNum F) E A rows (D 0) /\
        Course (VdGen A (length rows) (Z.to_nat k) (Z.to_nat (a_popsize (caa A)))) D G h
               (Z.to_nat (r_nit res)) (Some (r_status res)) /\ r_fun res = last h 0%float
    end.
Proof.
  cbn zeta. intros Hb Hm Hp Hx. destruct (FNum_k F E HE c w a0 res st' Hp Hx) as (k & Hk & Hle).
  exists k. split; [exact Hk|]. destruct c as [A|A]; cbn [cma_run cma_cargs] in *.
  - apply (C70_cmaes HE HEig HEmp A rows k w a0 res st' Hb Hm Hk Hle Hx).
  - apply (C70_vdcma HE HEmp A rows k w a0 res st' Hb Hm Hk Hle Hx).
Qed.

(** Calls that stop because of [ftol], because the steps are too small, and because the mean no longer moves. *)
Definition rs_args (sg xt ft : float) (mx : Z) : @CMAArgs (FNum DF) :=
  @mkCMAArgs (FNum DF)
    (@mkArgs (FNum DF) true b6 (Some (@D1 (FArith DF) [0.5; 0.75; -0.5; 0.25; 0.5; -0.75]%float)) true mx 6 None xt ft
             None 1 None false 1%float CbFun)
    sg 0.5%float.
Definition rs_call (vd : bool) (sg xt ft : float) (mx : Z) : @CmaCall (FNum DF) :=
  if vd then CallVD (rs_args sg xt ft mx) else CallCMA (rs_args sg xt ft mx).
Definition rs_run (c : @CmaCall (FNum DF)) :=
  @exec (FNum DF) (DemoEnv DF f_sphere) _ (cma_run c) w_vd None.
Definition rs_cases : list (@CmaCall (FNum DF) * (Z * Z)) :=
  [(rs_call false 0.5 (-1) 2 3, (1, 1)); (rs_call false 0.5 1 2 3, (1, 0)); (rs_call false 1e-13 (-1) (-1) 3, (1, -2));
   (rs_call false 0.5 (-1) (-1) 3, (3, -1)); (rs_call true 1e-13 (-1) (-1) 3, (1, -3));
   (rs_call true 0.5 (-1) 1 4, (3, 1))]%Z.
Theorem C70_hypotheses : Forall (fun e => let '(c, (n, s)) := e in
    (exists rows, a_bounds (caa (cma_cargs c)) = D2 2 rows) /\
    a_backend (caa (cma_cargs c)) <> Some "mpi"%string /\ (a_popsize (caa (cma_cargs c)) <= 2 ^ 53)%Z /\
    exists res st', rs_run c = (inl res, st') /\ r_nit res = n /\ r_status res = s) rs_cases.
Proof.
  assert (HQ : forall c n s, match rs_run c with (inl r, t) => Z.eqb (r_nit r) n && Z.eqb (r_status r) s | _ => false end = true ->
    exists res st', rs_run c = (inl res, st') /\ r_nit res = n /\ r_status res = s).
  { intros c n s H. destruct (rs_run c) as [[r|e] t]; [|discriminate]. apply andb_true_iff in H. rewrite !Z.eqb_eq in H. eauto. }
  unfold rs_cases.
  repeat (apply Forall_cons || apply Forall_nil);
    (split; [eexists; reflexivity|split; [discriminate|split; [cbn; lia|apply HQ; vm_compute; reflexivity]]]).
Qed.

(** The last of them: vdcma stops in its third generation because the best value is below [ftol]; the
    first two generations gave no reason to stop. *)
Lemma rs_course (A : @CMAArgs (FNum DF)) n s :
  (exists rows, a_bounds (caa A) = D2 2 rows /\ length rows = 6) ->
  a_backend (caa A) <> Some "mpi"%string -> a_popsize (caa A) = 6%Z ->
  @ntrunc (FNum DF) (PrimFloat.mul (caa_muperc A) (f_ofZ (a_popsize (caa A)))) = Some 3%Z ->
  (exists res st', rs_run (CallVD A) = (inl res, st') /\ r_nit res = n /\ r_status res = s) ->
  exists D G h res st', rs_run (CallVD A) = (inl res, st') /\
    @Course (FNum DF) _ (@VdGen (FNum DF) A 6 3 6) D G h (Z.to_nat n) (Some s) /\
    r_fun res = last h 0%float.
Proof.
  intros (rows & Hb & Hr) Hm Hp Hk (res & st' & Hx & Hn & Hs).
  assert (Hle : (3 <= a_popsize (caa A))%Z) by lia.
  pose proof (C70_vdcma (DemoEnv_OK DF f_sphere) (Demo_Empty _) A rows 3%Z w_vd None res st' Hb Hm Hk Hle Hx) as HB.
  rewrite Hn, Hs, Hr, Hp in HB. destruct HB as (D & G & h & _ & HC & Hf).
  exists D, G, h, res, st'. split; [exact Hx|]. split; [exact HC|exact Hf].
Qed.

Theorem C70_runs : exists D G h res st',
  rs_run (rs_call true 0.5 (-1) 1 4)%float = (inl res, st') /\
  @Course (FNum DF) _ (@VdGen (FNum DF) (rs_args 0.5 (-1) 1 4)%float 6 3 6) D G h 3 (Some 1%Z) /\
  r_fun res = last h 0%float.
Proof.
  pose proof C70_hypotheses as H. rewrite Forall_forall in H.
  specialize (H (rs_call true 0.5 (-1) 1 4, (3%Z, 1%Z))%float ltac:(unfold rs_cases; do 5 right; left; reflexivity)).
  cbn beta iota zeta in H. destruct H as (_ & _ & _ & H). unfold rs_call in H |- *.
  apply (rs_course (rs_args 0.5 (-1) 1 4)%float 3%Z 1%Z).
  - eexists. split; [reflexivity|reflexivity].
  - discriminate.
  - reflexivity.
  - vm_compute. reflexivity.
  - exact H.
Qed.
