(** Runs that meet the hypotheses of C78, binary64. *)
From Coq Require Import Floats.
From Verif Require Import Base Num NumF Env Common DE CPSO Rel Hoare EvalRules Gen Steps Best Inst Refuse Demo ExPop.
Open Scope nat_scope.

(** the objective of the first run is the sum of squares; that of the second returns NaN where the
    sum of squares exceeds 1 *)
Definition fn_nan (x : list float) (w : Script * unit) : (float + nat) * (Script * unit) :=
  (match f_sphere x with inl y => inl (if PrimFloat.leb y 1 then y else nan) | inr e => inr e end, w).
Definition ES : Env (FNum DF) := DemoEnv DF f_sphere.
Definition EN : Env (FNum DF) := @other_fun (FNum DF) ES fn_nan.

Theorem C78_nan_answers x w : @SameAnswer (FNum DF) 1%float _ (@e_fun (FNum DF) ES x w) (fn_nan x w).
Proof.
  unfold SameAnswer, fn_nan, ES. cbn [e_fun DemoEnv fst snd]. split; [reflexivity|]. unfold f_sphere.
  set (y := fold_left _ _ _). destruct (PrimFloat.leb y 1) eqn:Hy; [left; reflexivity|].
  right. split; [exact Hy|reflexivity].
Qed.

Definition start4 : @nd (FArith DF) := @D2 (FArith DF) 2 [[0.5; 0.5]; [0.75; -0.5]; [-0.5; 0.75]; [0.25; 0.75]]%float.
Definition start3 : @nd (FArith DF) := @D2 (FArith DF) 2 [[0.5; 0.5]; [0.75; -0.5]; [-0.75; 0.25]]%float.
Definition args78 (x0 : @nd (FArith DF)) (p : Z) : @Args (FNum DF) :=
  demo_args DF (Some x0) 4 p (-1)%float (-1)%float None false 1%float.
Definition de78 (up : string) : @DEArgs (FNum DF) :=
  @mkDEArgs (FNum DF) (args78 start4 4) 1.5%float 0.875%float "rand1bin" up.
Definition pso78 (up : string) : @PSOArgs (FNum DF) :=
  @mkPSOArgs (FNum DF) (args78 start3 3) 0.75%float 4%float 4%float up.
Definition cpso78 (up : string) : @CPSOArgs (FNum DF) :=
  @mkCPSOArgs (FNum DF) (args78 start3 3) 0.75%float 4%float 4%float None up.

(** Both runs return the same result after 4 iterations; [k] values are above 1 in the first run
    and NaN in the second; the first run meets the hypothesis on the initial values. *)
Definition count (P : float -> bool) (l : list (list float * float)) : nat := length (filter (fun xy => P (snd xy)) l).
Definition Swapped (p : nat) (m : forall E : Env (FNum DF), @M (FNum DF) E (@OptRes (FNum DF))) (k : nat) : Prop :=
  exists r s s',
    @exec (FNum DF) ES _ (m ES) w0 None = (inl r, s) /\
    Forall (fun xy => PrimFloat.leb (snd xy) 1 = true) (firstn p (evals (tr s))) /\
    r_nit r = 4%Z /\ count (fun y => negb (PrimFloat.leb y 1)) (evals (tr s)) = k /\
    count (fun y => negb (PrimFloat.leb y y)) (evals (tr s)) = 0 /\
    @exec (FNum DF) EN _ (m EN) w0 None = (inl r, s') /\
    Forall2 (@SameCall (FNum DF) 1%float) (tr s) (tr s') /\
    count (fun y => negb (PrimFloat.leb y y)) (evals (tr s')) = k.

Definition first_ok (p k : nat) (r : @OptRes (FNum DF)) (t : list (@event (FArith DF))) : bool :=
  forallb (fun xy => PrimFloat.leb (snd xy) 1) (firstn p (evals t)) && Z.eqb (r_nit r) 4 &&
  Nat.eqb (count (fun y => negb (PrimFloat.leb y 1)) (evals t)) k &&
  Nat.eqb (count (fun y => negb (PrimFloat.leb y y)) (evals t)) 0.

Lemma swapped p (m : forall E : Env (FNum DF), @M (FNum DF) E (@OptRes (FNum DF))) k :
  match @exec (FNum DF) ES _ (m ES) w0 None with (inl r, s) => first_ok p k r (tr s) | _ => false end = true ->
  match @exec (FNum DF) EN _ (m EN) w0 None with
  | (inl _, s) => Nat.eqb (count (fun y => negb (PrimFloat.leb y y)) (evals (tr s))) k | _ => false end = true ->
  (forall r s, @exec (FNum DF) ES _ (m ES) w0 None = (r, s) ->
     Forall (fun xy => PrimFloat.leb (snd xy) 1 = true) (firstn p (evals (tr s))) ->
     exists s', @exec (FNum DF) EN _ (m EN) w0 None = (r, s') /\ rs s' = rs s /\ argbuf s' = argbuf s /\
                Forall2 (@SameCall (FNum DF) 1%float) (tr s) (tr s')) ->
  Swapped p m k.
Proof.
  intros H1 H2 H. unfold Swapped.
  destruct (@exec (FNum DF) ES _ (m ES) w0 None) as [[r|e] s]; [|discriminate].
  unfold first_ok in H1. rewrite !andb_true_iff, !Nat.eqb_eq, Z.eqb_eq in H1. destruct H1 as [[[Ha Hb] Hc] Hd].
  assert (Hf : Forall (fun xy => PrimFloat.leb (snd xy) 1 = true) (firstn p (evals (tr s)))).
  { rewrite forallb_forall in Ha. apply Forall_forall. exact Ha. }
  destruct (H _ s eq_refl Hf) as (s' & Hx & _ & _ & Ht). rewrite Hx in H2. apply Nat.eqb_eq in H2.
  exists r, s, s'. repeat split; assumption.
Qed.

Lemma ES_sched : @SchedOK (FNum DF) ES.
Proof. exact (@eo_sched _ _ (DemoEnv_OK DF f_sphere)). Qed.

(** The hypotheses of C78_de, C78_pso and C78_cpso hold for runs in which the second objective
    returns NaN. *)
Theorem C78_runs :
  Swapped 4 (fun E => @de_minimize (FNum DF) E (de78 "deferred")) 10 /\
  Swapped 4 (fun E => @de_minimize (FNum DF) E (de78 "immediate")) 9 /\
  Swapped 3 (fun E => @pso_minimize (FNum DF) E (pso78 "deferred")) 6 /\
  Swapped 3 (fun E => @cpso_minimize (FNum DF) E (cpso78 "immediate")) 6.
Proof.
  split; [|split; [|split]]; (apply swapped; [vm_compute; reflexivity|vm_compute; reflexivity|intros r s]).
  - apply (@C78_de (FNum DF) (FOrd DF) ES 1%float fn_nan C78_nan_answers ES_sched); [discriminate|reflexivity].
  - apply (@C78_de (FNum DF) (FOrd DF) ES 1%float fn_nan C78_nan_answers ES_sched); [discriminate|reflexivity].
  - apply (@C78_pso (FNum DF) (FOrd DF) ES 1%float fn_nan C78_nan_answers ES_sched); [discriminate|reflexivity].
  - apply (@C78_cpso (FNum DF) (FOrd DF) ES 1%float fn_nan C78_nan_answers ES_sched); [discriminate|reflexivity|left; reflexivity].
Qed.
