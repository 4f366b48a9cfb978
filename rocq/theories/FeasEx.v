(** The exact and the binary64 instance of C10, and concrete data over the extended reals that meet
    the hypotheses of C10 to C13. *)
From Coq Require Import Reals Lra Floats.
From Verif Require Import Base Num NumR NumE NumF Env Common DE CPSO NA Mat CMAES VDCMA Hoare EvalRules
  Gen Steps Hist Runs Best Inst Laws Safe Feas FeasPso FeasNa DimCma FeasCma PlainEnv Valid Accept.
Open Scope R_scope.

(** C10 in exact arithmetic: finite ordered bounds and a feasible x0 (or none). *)
Theorem C10_exact (E : Env ENum) (HE : EnvOK) A rows w a0 r st' :
  a_bounds (dea A) = D2 2 rows -> a_constraints (dea A) = Some "Random"%string -> FiniteBox rows ->
  (a_backend (dea A) = Some "mpi"%string -> BcastKeeps (Box rows)) ->
  (forall x, a_x0 (dea A) = Some x -> Forall (Box rows) (nd_rows x)) ->
  (2 <= a_popsize (dea A))%Z ->
  exec (de_minimize A) w a0 = (r, st') ->
  (forall x, In x (points (tr st')) -> Box rows x) /\
  (forall X st, In (X, st) (cbs (tr st')) -> Forall (Box rows) X /\ Box rows (cb_x st)) /\
  (forall res, r = inl res -> Box rows (r_x res)).
Proof.
  intros Hb Hc HF HB HX Hp Hx. eapply C10_all; eauto; [apply FiniteBox_uniform, HF|].
  destruct (a_x0 (dea A)) as [x|]; [apply HX; reflexivity|].
  eapply Forall_impl; [|exact HF]. intros v (l & u & -> & Hlu). cbn [nth].
  intros k u0 Hk H1 H2. apply Cin_inb. eapply ENum_LhsLaw; eauto. lia.
Qed.

(** C10 in binary64: after the initial population the bounds hold without any rounding slack. *)
Definition FloatBox (rows : list (list float)) : Prop :=
  Forall (fun r => exists lo hi, r = [lo; hi] /\ ffinite lo /\ ffinite hi /\ ffinite (hi - lo)%float /\
                                 PrimFloat.leb lo hi = true) rows.
Definition FloatIn (rows : list (list float)) (x : list float) : Prop :=
  length x = length rows /\
  forall i, (i < length rows)%nat ->
    PrimFloat.ltb (nth i x 0%float) (nth 0 (nth i rows []) 0%float) = false /\
    PrimFloat.ltb (nth 1 (nth i rows []) 0%float) (nth i x 0%float) = false.
Theorem C10_binary64 (F : FloatFuns) (E : Env (FNum F)) (HE : @EnvOK (FNum F) E) (A : @DEArgs (FNum F))
    (rows : list (list float)) w a0 r st' :
  a_bounds (dea A) = @D2 (FArith F) 2 rows -> a_constraints (dea A) = Some "Random"%string ->
  FloatBox rows ->
  (a_backend (dea A) = Some "mpi"%string -> @BcastKeeps (FNum F) E (@Box (FArith F) rows)) ->
  (forall x, a_x0 (dea A) = Some x -> nd_wf x) ->
  exec (de_minimize A) w a0 = (r, st') ->
  forall k x, nth_error (points (tr st')) k = Some x -> (a_popsize (dea A) <= Z.of_nat k)%Z ->
  FloatIn rows x.
Proof.
  intros Hb Hc HF HB HX Hx k x Hk Hp.
  assert (H : @Box (FArith F) rows x).
  { eapply (@C10_after_initial (FNum F) E (FOrd F) HE); eauto. eapply Forall_impl; [|exact HF].
    intros v (lo & hi & -> & H1 & H2 & H3 & H4). cbn [nth]. apply FNum_UniformLaw; auto. }
  exact H.
Qed.

(** ** Data meeting the hypotheses *)
Definition EE (f : list er -> er) : Env ENum := PlainEnv (N := ENum) (fun _ => Fin (1 / 2)) f.
Lemma EE_OK f : @EnvOK ENum (EE f).
Proof.
  apply PlainEnv_OK. intros k. cbn. unfold Rlit. cbn. split; rb; lra.
Qed.
Lemma EE_eigh f : @EighRows ENum (EE f).
Proof. apply PlainEnv_Eigh. Qed.

Definition ebox : list (list er) := [[Fin (-1); Fin 1]; [Fin 0; Fin 0]].
Lemma ebox_finite : FiniteBox ebox.
Proof. repeat constructor; eexists; eexists; (split; [reflexivity|lra]). Qed.

Definition eargs (con : option string) (x0 : option (@nd (@num_arith ENum))) : @Args ENum :=
  @mkArgs ENum true (@D2 EArith 2 ebox) x0 true 3 4 (Some 0%Z) (Fin 0) (Fin 0) con 1 None true (Fin 1) CbFun.
Definition ex0 : @nd (@num_arith ENum) :=
  @D2 EArith 2 [[Fin 1; Fin 0]; [Fin (-1); Fin 0]; [Fin 0; Fin 0]; [Fin (1/2); Fin 0]].
Lemma ex0_inside : Forall (FBox ebox) (nd_rows ex0).
Proof.
  assert (H : forall r, -1 <= r <= 1 -> FBox ebox [Fin r; Fin 0]).
  { intros r Hr. split; [split; [reflexivity|]|].
    - intros i Hi. cbn in Hi. (destruct i as [|[|i]]; [| |lia]); split; cbn; rb; lra.
    - constructor; [|constructor; [|constructor]]; unfold isnum; cbn; rb; lra. }
  constructor; [|constructor; [|constructor; [|constructor; [|constructor]]]]; apply H; lra.
Qed.

Definition e_de x0 : @DEArgs ENum := mkDEArgs (eargs (Some "Random"%string) x0) (Fin (1/2)) (Fin (1/2)) "rand1bin" "deferred".
Definition e_cpso x0 : @CPSOArgs ENum :=
  mkCPSOArgs (eargs (Some "Shrink"%string) x0) (Fin (1/2)) (Fin 1) (Fin 1) (Some (Fin 1)) "deferred".
Definition e_na x0 : @NAArgs ENum := mkNAArgs (eargs None x0) (Fin (1/2)).

Lemma eargs_valid con : ValidPop (eargs con (Some ex0)) /\ ValidPop (eargs con None).
Proof.
  split; constructor; try reflexivity; try discriminate; exists 2%nat; (split; [exists ebox; split; reflexivity|]).
  - exists (nd_rows ex0). split; reflexivity.
  - exact I.
Qed.
Lemma within_ex : @within ENum 0 (Fin (1/2)) 2 /\ @within ENum 0 (Fin (1/2)) 1 /\
  @within ENum 0 (Fin 1) 4 /\ @within ENum 0 (Fin 1) 2 /\ @within_open ENum 0 (Fin (1/2)) 1.
Proof. repeat split; cbn; unfold Rlit; cbn; rb; lra. Qed.

(** The premises of C10_exact, C11_cpso and C13_na hold together, and the runs do evaluate points. *)
Theorem C10_C11_C13_hypotheses f w a0 : let E := EE f in
  EnvOK /\ FiniteBox ebox /\ Forall (FBox ebox) (nd_rows ex0) /\
  (forall x0, x0 = Some ex0 \/ x0 = None ->
    FirstEval (de_minimize (e_de x0)) w a0 /\ FirstEval (cpso_minimize (e_cpso x0)) w a0 /\
    FirstEval (na_minimize (e_na x0)) w a0).
Proof.
  intros E. split; [apply EE_OK|]. split; [apply ebox_finite|]. split; [apply ex0_inside|].
  intros x0 Hx0. destruct within_ex as (W1 & W2 & W3 & W4 & W5).
  assert (HV : forall c, ValidPop (eargs c x0)) by (intros c; destruct Hx0 as [-> | ->]; apply eargs_valid).
  split; [|split].
  - apply C22_accepted_de; [apply EE_OK| |].
    + constructor; try apply HV; try exact W1; try exact W2; try exact W3; try exact W4; cbn; auto.
    + destruct Hx0 as [-> | ->]; cbn; auto.
  - apply C22_accepted_cpso; [apply EE_OK| |].
    + constructor; try apply HV; try exact W1; try exact W2; try exact W3; try exact W4; cbn; auto.
    + destruct Hx0 as [-> | ->]; cbn; auto.
  - apply C22_accepted_na; [apply EE_OK| |].
    + constructor; [apply HV|exact W5].
    + discriminate.
Qed.
