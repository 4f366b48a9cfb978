(** C59 in binary64, and runs that meet its hypotheses. *)
From Coq Require Import Floats.
From Verif Require Import Base Num NumR NumE NumF FBridge FLaws Env Common DE CPSO NA Mat CMAES VDCMA Hoare EvalRules
  Gen Steps Hist Runs CmaRun Best Inst HistFacts HistBest PropPop Laws Valid Safe Feas Trial Restart Flight Adapt AdaptEx
  VAdapt Demo ExPop.
Open Scope nat_scope.

Theorem C59_binary64 (F : FloatFuns) (E : Env (FNum F)) (HE : @EnvOK (FNum F) E)
    (HEmp : @EmptyShape (FNum F) E)
    (A : @CMAArgs (FNum F)) rows w a0 res st' :
  a_bounds (caa A) = D2 2 rows ->
  a_backend (caa A) <> Some "mpi"%string ->
  (a_popsize (caa A) <= 2 ^ 53)%Z ->
  exec (vdcma_minimize A) w a0 = (inl res, st') ->
  exists k S B h,
    @ntrunc (FNum F) (PrimFloat.mul (caa_muperc A) (f_ofZ (a_popsize (caa A)))) = Some k /\
    VAdapt A rows (Z.to_nat k) (Z.to_nat (a_popsize (caa A))) (one_worker (a_workers (caa A)))
          (Z.to_nat (r_nit res)) S B (Some (r_x res, r_fun res)) (evals (tr st')) h (Some (r_status res)).
Proof.
  intros Hb Hm Hp Hx.
  pose proof (vdcma_run A w a0 ltac:(intros mode _; apply (EnvOK_mode HE))) as H.
  pose proof (wp_elim _ _ _ _ _ _ H Hx) as (P & HP & _).
  destruct (cpo_mu _ _ HP) as (k & Hk & _). destruct (cpo_muperc _ _ HP) as [H0 H1].
  pose proof (cpo_p1 _ _ HP) as Hp1.
  assert (Hle : (k <= a_popsize (caa A))%Z).
  { apply (FNum_parents F (caa_muperc A) _ k H0 H1); [lia|exact Hk]. }
  destruct (C59_adaptation HE HEmp A rows k w a0 res st' Hb Hm Hk Hle Hx) as (S & B & h & HS).
  exists k, S, B, h. split; [exact Hk|exact HS].
Qed.

(** Six dimensions, so that the learning rates are positive. *)
Definition b6 := @D2 (FArith DF) 2 (repeat [-1; 1]%float 6).
Definition vd_call (con : option string) : @CMAArgs (FNum DF) :=
  @mkCMAArgs (FNum DF)
    (@mkArgs (FNum DF) true b6 (Some (@D1 (FArith DF) [0.5; 0.75; -0.5; 0.25; 0.5; -0.75]%float)) true 3 6 None (-1)%float (-1)%float
             con 1 None false 1%float CbFun)
    0.5%float 0.5%float.
Definition w_vd : Script * unit :=
  (mkScript [] [
    -1.125; -1.125; 0.625; -2.25; -0.125; -2.25; 1.125; 0.25; 1.375; -0.5; 0.375; -0.25; -0.75; 0.125;
    -1.25; -0.375; 0.75; 0; -0.375; 2.25; 0; -0.625; 0.125; -0.5; -0.375; -0.375; 2; 0; 0.125; 0.625; 2;
    -0.25; -0.625; 2.5; -1.5; -0.375; 0.625; 2.25; -1; -2.375; 0.625; -0.5; -0.375; 0.5; 0.25; 0.25;
    -0.375; 1.25; 1.5; 0; -0.5; 0.75; 0.5; -1; -0.5; 1; -0.125; -0.375; 0.25; 0; 0; -1.875; 1.75; 0.25;
    -0.875; 1; 0.25; 0; 1; 2.25; 0.5; 1.625; 2.125; -1; -0.5; 0.75; -1.75; -0.25; 1.25; 1; 0.625;
    -1.875; 2.375; 0.5; 0.75; 0.5; -1.75; -1.375; -1.25; 1.875; -0.875; -0.25; -0.25; 0.625; 0.5; 0.25;
    -1.25; -3.125; 0.125; 0.25; 1.25; -0.125; -0.625; 0.375; -1.5; -1; -1; 0.25; 2.125; 0.75; 1.125;
    0.25; 0.25; -0.5; -0.25; -2.375; -1.25; -1.25; 0.875; 0.625; 1.125; 1.5; -0.25; 1; 2; 0; 1.125;
    -0.125; -1.625; 0.125; -0.875; 0.125; -0.5; 0.375; -2.125; 2.125; 1.375; -0.375; -0.875; 0]%float [] [], tt).
Definition run_vd (con : option string) :=
  @exec (FNum DF) (DemoEnv DF f_sphere) _ (@vdcma_minimize (FNum DF) (DemoEnv DF f_sphere) (vd_call con)) w_vd None.

(** Runs of three generations that return, with and without Penalize; the shape of the
    distribution is learned ([c1 + cmu > 0]); with Penalize every point is evaluated in the box. *)
Theorem C59_hypotheses con : In con [None; Some "Penalize"%string] ->
  (exists rows, a_bounds (caa (vd_call con)) = D2 2 rows) /\
  a_backend (caa (vd_call con)) <> Some "mpi"%string /\
  (a_popsize (caa (vd_call con)) <= 2 ^ 53)%Z /\
  (forall mueff cc c1 cmu, @VRates (FNum DF) 6 3 mueff cc c1 cmu -> PrimFloat.ltb 0 (cmu + c1) = true) /\
  exists res st', run_vd con = (inl res, st') /\ length (evals (tr st')) = 18 /\ r_nit res = 3%Z /\ r_status res = (-1)%Z /\
    forallb (fun e => forallb (fun x => PrimFloat.leb (-1) x && PrimFloat.leb x 1) (fst e)) (evals (tr st')) =
      match con with None => false | _ => true end /\
    PrimFloat.ltb (r_fun res) (snd (nth 3 (evals (tr st')) ([], 0%float))) = true.
Proof.
  intros Hc. split; [eexists; reflexivity|]. split; [discriminate|]. split; [cbn; lia|]. split.
  { intros mueff cc c1 cmu [-> _ -> ->]. vm_compute. reflexivity. }
  set (Q := fun (r : @OptRes (FNum DF)) (t : @St (FNum DF) (DemoEnv DF f_sphere)) =>
    Nat.eqb (length (evals (tr t))) 18 && Z.eqb (r_nit r) 3 && Z.eqb (r_status r) (-1) &&
    Bool.eqb (forallb (fun e => forallb (fun x => PrimFloat.leb (-1) x && PrimFloat.leb x 1) (fst e)) (evals (tr t)))
             (match con with None => false | _ => true end) &&
    PrimFloat.ltb (r_fun r) (snd (nth 3 (evals (tr t)) ([], 0%float)))).
  assert (HQ : match run_vd con with (inl r, t) => Q r t | _ => false end = true)
    by (destruct Hc as [<-|[<-|[]]]; vm_compute; reflexivity).
  clear Hc. destruct (run_vd con) as [[r|e] t]; [|discriminate]. exists r, t. split; [reflexivity|].
  unfold Q in HQ. rewrite !andb_true_iff, Nat.eqb_eq, !Z.eqb_eq, Bool.eqb_true_iff in HQ. tauto.
Qed.

Theorem C59_runs con : In con [None; Some "Penalize"%string] ->
  exists rows res st' S B h, run_vd con = (inl res, st') /\
    @VAdapt (FNum DF) (DemoEnv DF f_sphere) (vd_call con) rows 3 6 true 3 S B
           (Some (r_x res, r_fun res)) (evals (tr st')) h (Some (-1)%Z).
Proof.
  intros Hc. destruct (C59_hypotheses con Hc) as ((rows & Hb) & Hm & Hp & _ & res & st' & Hx & _ & Hn & Hst & _).
  destruct (C59_binary64 DF (DemoEnv DF f_sphere) (DemoEnv_OK DF f_sphere) (Demo_Empty _)
              (vd_call con) rows w_vd None res st' Hb Hm Hp Hx) as (k & S & B & h & Hk & HS).
  assert (Hk3 : k = 3%Z) by (vm_compute in Hk; injection Hk as <-; reflexivity). subst k.
  rewrite Hn, Hst in HS. exists rows, res, st', S, B, h. split; [exact Hx|exact HS].
Qed.
