(** C57 in binary64, and runs that meet its hypotheses. *)
From Coq Require Import Floats.
From Verif Require Import Base Num NumF Env Common DE CPSO NA Hoare EvalRules Gen Steps Hist Runs Best
  Inst HistFacts HistBest PropPop Laws Valid Safe Feas Trial Restart Flight Demo ExPop.

(** The only fact about the C library: exp is never negative. *)
Theorem C57_binary64 (F : FloatFuns) (HF : ExpOK F) (E : Env (FNum F)) (HE : @EnvOK (FNum F) E)
    (A : @CPSOArgs (FNum F)) rows w a0 res st' :
  a_bounds (pa A) = D2 2 rows ->
  (forall x, a_x0 (pa A) = Some x -> nd_wf x) ->
  a_backend (pa A) <> Some "mpi"%string ->
  (1 <= a_popsize (pa A) <= 2 ^ 53)%Z ->
  exec (cpso_minimize A) w a0 = (inl res, st') ->
  exists X V B f,
    Flight A rows (Z.to_nat (a_popsize (pa A))) (is_sync (pa_updating A) (pa A))
           (one_worker (a_workers (pa A))) false
           X V B f (r_x res) (r_fun res) (evals (tr st')) /\
    length (evals (tr st')) = Z.to_nat (r_nit res) * Z.to_nat (a_popsize (pa A)).
Proof.
  intros Hb Hwf Hm Hp Hx. apply (C57_flight HE A rows w a0 res st' Hb Hwf Hm); [|exact Hx].
  intros _. apply FNum_RestartLaw; [exact HF|lia|]. rewrite Z2Nat.id; lia.
Qed.

Lemma DF_ExpOK : ExpOK DF.
Proof.
  intros x. cbn [DF f_exp]. unfold d_exp.
  destruct (PrimFloat.ltb 709 x); [reflexivity|]. destruct (PrimFloat.ltb x (-745)); [reflexivity|].
  generalize (d_sq 11 (d_exp_ser 14 14 (x / 2048) 1)). intros y.
  rewrite ltb_spec, abs_spec. destruct (Prim2SF y) as [[]|[]| |[] m e]; reflexivity.
Qed.

Definition x0_3 : @nd (@num_arith (FNum DF)) :=
  @D2 (FArith DF) 2 [[0.5; 0.5]; [0.75; -0.5]; [-1; 1]]%float.
Definition cpso_call (u : string) : @CPSOArgs (FNum DF) :=
  @mkCPSOArgs (FNum DF)
    (demo_args DF (Some x0_3) 4 3 (-1)%float (-1)%float (Some "Shrink"%string) false 1%float)
    0.75%float 4%float 4%float (Some 1%float) u.
Definition run_cpso (u : string) :=
  @exec (FNum DF) (DemoEnv DF f_sphere) _ (@cpso_minimize (FNum DF) (DemoEnv DF f_sphere) (cpso_call u)) w0 None.

(** Runs that return, in both modes: the hypotheses of C57_flight hold, the third particle's first
    move is shortened to end on the upper bound, and a later move improves the result. *)
Theorem C57_hypotheses u : In u ["immediate"; "deferred"]%string ->
  (exists rows, a_bounds (pa (cpso_call u)) = D2 2 rows) /\
  (forall x, a_x0 (pa (cpso_call u)) = Some x -> nd_wf x) /\
  a_backend (pa (cpso_call u)) <> Some "mpi"%string /\
  (1 <= a_popsize (pa (cpso_call u)) <= 2 ^ 53)%Z /\
  truthy (pa_competitivity (cpso_call u)) <> None /\
  exists res st', run_cpso u = (inl res, st') /\ length (evals (tr st')) = 12 /\ r_nit res = 4%Z /\
    PrimFloat.eqb (nth 0 (fst (nth 5 (evals (tr st')) ([], 0%float))) 0%float) 1 = true /\
    PrimFloat.ltb (r_fun res) (snd (nth 0 (evals (tr st')) ([], 0%float))) = true.
Proof.
  intros Hu. split; [eexists; reflexivity|]. split.
  { intros x Hx. injection Hx as <-. repeat constructor. }
  split; [discriminate|]. split; [cbn; lia|]. split; [vm_compute; discriminate|].
  set (Q := fun (r : @OptRes (FNum DF)) (t : @St (FNum DF) (DemoEnv DF f_sphere)) =>
    Nat.eqb (length (evals (tr t))) 12 && Z.eqb (r_nit r) 4 &&
    PrimFloat.eqb (nth 0 (fst (nth 5 (evals (tr t)) ([], 0%float))) 0%float) 1 &&
    PrimFloat.ltb (r_fun r) (snd (nth 0 (evals (tr t)) ([], 0%float)))).
  assert (HQ : match run_cpso u with (inl r, t) => Q r t | _ => false end = true)
    by (destruct Hu as [<-|[<-|[]]]; vm_compute; reflexivity).
  clear Hu. destruct (run_cpso u) as [[r|e] t]; [|discriminate]. exists r, t. split; [reflexivity|].
  unfold Q in HQ. rewrite !andb_true_iff, Nat.eqb_eq, Z.eqb_eq in HQ. tauto.
Qed.

(** The conclusion, for these runs. *)
Theorem C57_runs u : In u ["immediate"; "deferred"]%string ->
  exists rows res st' X V B f, run_cpso u = (inl res, st') /\
    @Flight (FNum DF) (DemoEnv DF f_sphere) (cpso_call u) rows 3 (String.eqb u "deferred") true false X V B f (r_x res) (r_fun res) (evals (tr st')) /\
    length (evals (tr st')) = 12.
Proof.
  intros Hu. destruct (C57_hypotheses u Hu) as ((rows & Hb) & Hwf & Hm & Hp & _ & res & st' & Hx & Hl & _).
  destruct (C57_binary64 DF DF_ExpOK (DemoEnv DF f_sphere) (DemoEnv_OK DF f_sphere) (cpso_call u) rows w0 None res st' Hb Hwf Hm Hp Hx)
    as (X & V & B & f & HF & _).
  exists rows, res, st', X, V, B, f. split; [exact Hx|]. split; [|exact Hl].
  destruct Hu as [<-|[<-|[]]]; exact HF.
Qed.
