(** C61 in exact arithmetic and in binary64, and runs that meet its hypotheses. *)
From Coq Require Import Reals Lra Floats.
From Verif Require Import Base Num NumR NumE NumF Env Common DE Sample Rel Hoare EvalRules Gen Inst Mono Shift
  Demo ExPop MonoEx ExSamp.
Open Scope nat_scope.

(** ** Exact arithmetic: any real constant *)
Theorem C61_constant (c : R) : @Shift ENum (fun y => er_add y (Fin c)) (fun _ => True).
Proof.
  constructor.
  - pose proof (C60_increasing (fun x => (x + c)%R) (fun x y H => Rplus_lt_compat_r c x y H)) as [H1 H2 H3].
    assert (HL : forall y, er_add y (Fin c) = lift (fun x => (x + c)%R) y) by (intros []; reflexivity).
    constructor; intros; rewrite ?HL; auto.
  - intros [x| | |] [y| | |] _ _; cbn; try reflexivity. f_equal. ring.
  - reflexivity.
  - exact I.
Qed.

(** ** Binary64 *)
Definition slevels : list float := [1; 2; 4; 8; infinity]%float.
Definition SLevel (y : float) : Prop := In y slevels.
Definition g_16 (y : float) : float := PrimFloat.add y 16.
Definition ESg : Env (FNum DF) := @shifted (FNum DF) g_16 EL (fun _ _ w => (None, w)).

Lemma slevels_shift : @Shift (FNum DF) g_16 SLevel.
Proof.
  constructor; [constructor| | |].
  - intros x y Hx Hy.
    assert (H : forallb (fun x => forallb (fun y => Bool.eqb (PrimFloat.ltb (g_16 x) (g_16 y)) (PrimFloat.ltb x y))
                                    slevels) slevels = true) by (vm_compute; reflexivity).
    rewrite forallb_forall in H. specialize (H x Hx). rewrite forallb_forall in H.
    specialize (H y Hy). apply Bool.eqb_prop in H. exact H.
  - intros x y Hx Hy.
    assert (H : forallb (fun x => forallb (fun y => Bool.eqb (PrimFloat.leb (g_16 x) (g_16 y)) (PrimFloat.leb x y))
                                    slevels) slevels = true) by (vm_compute; reflexivity).
    rewrite forallb_forall in H. specialize (H x Hx). rewrite forallb_forall in H.
    specialize (H y Hy). apply Bool.eqb_prop in H. exact H.
  - intros x Hx.
    assert (H : forallb (fun x => Bool.eqb (@nisnan (FArith DF) (g_16 x)) (@nisnan (FArith DF) x)) slevels = true)
      by (vm_compute; reflexivity).
    rewrite forallb_forall in H. specialize (H x Hx). apply Bool.eqb_prop in H. exact H.
  - intros x y Hx Hy. unfold SLevel, slevels in Hx, Hy.
    repeat (destruct Hx as [<-|Hx]; [repeat (destruct Hy as [<-|Hy]; [vm_compute; reflexivity|]); destruct Hy|]).
    destruct Hx.
  - reflexivity.
  - do 4 right. left. reflexivity.
Qed.
Lemma slevels_values : @ValuesIn (FNum DF) EL SLevel.
Proof.
  intros x w. unfold EL. cbn [e_fun DemoEnv fst]. unfold f_levels, SLevel, slevels.
  destruct (f_sphere x) as [s|s]; [|right; right; right; left; reflexivity].
  destruct (PrimFloat.ltb s 0.125); [left; reflexivity|].
  destruct (PrimFloat.ltb s 0.375); [right; left; reflexivity|].
  destruct (PrimFloat.ltb s 1); [right; right; left; reflexivity | right; right; right; left; reflexivity].
Qed.
Definition w_samp : Script * unit :=
  (mkScript [0.125; 0.75; 0.0625; 0.5; 0.25; 0.875]%float
            [-1; 0.5; 0.25; -0.5; -1; 1; 0.5; 0.75; -0.25; -1; 1; 0.5]%float [] [], tt).
Definition mc_levels := mcargs bsq [0.75; 0.75]%float 6 0.5%float None 1%float.
Definition hmc_levels : @HMCArgs (FNum DF) :=
  @mkHMCArgs NDF (sargs bsq [0.75; 0.5]%float 4 0.25%float None true CbFun) 2 JacNone 0.125%float.

(** Runs with accepted and rejected moves, and the runs for the objective plus 16. *)
Definition SBoth (m : @M (FNum DF) EL (@SampRes (FNum DF))) (m' : @M (FNum DF) ESg (@SampRes (FNum DF)))
    (y acc : float) : Prop :=
  exists r s s',
    @exec (FNum DF) EL _ m w_samp None = (inl r, s) /\
    @exec (FNum DF) ESg _ m' w_samp None = (inl (@shift_result (FNum DF) g_16 r), s') /\
    PrimFloat.eqb (sr_fun r) y = true /\ PrimFloat.eqb (sr_accept r) acc = true /\
    @tr (FNum DF) ESg s' = map (@shift_event (FNum DF) g_16) (@tr (FNum DF) EL s).

Lemma sboth (m : @M (FNum DF) EL (@SampRes (FNum DF))) (m' : @M (FNum DF) ESg (@SampRes (FNum DF)))
    (y acc : float) :
  match @exec (FNum DF) EL _ m w_samp None with
  | (inl r, _) => PrimFloat.eqb (sr_fun r) y && PrimFloat.eqb (sr_accept r) acc
  | _ => false end = true ->
  @SameSamples (FNum DF) EL g_16 (fun _ _ w => (None, w)) m m' ->
  SBoth m m' y acc.
Proof.
  intros H HS. specialize (HS w_samp None). unfold SBoth, ESg.
  destruct (@exec (FNum DF) EL _ m w_samp None) as [[r|e] s]; [|discriminate].
  rewrite andb_true_iff in H. destruct H as [H1 H2].
  match type of HS with (let (_, _) := ?q in _) => destruct q as [r' s'] end.
  destruct HS as (_ & _ & HT & ->). exists r, s, s'. auto.
Qed.

Theorem C61_runs :
  SBoth (@mcmc_sample (FNum DF) EL mc_levels) (@mcmc_sample (FNum DF) ESg mc_levels) 2%float 0.5%float /\
  SBoth (@hmc_sample (FNum DF) EL hmc_levels) (@hmc_sample (FNum DF) ESg hmc_levels) 1%float 0.5%float.
Proof.
  split; (apply sboth; [vm_compute; reflexivity|]).
  - apply (@C61_mcmc (FNum DF) EL g_16 SLevel slevels_shift slevels_values (fun _ _ w => (None, w))
             (fun _ _ _ => eq_refl) mc_levels).
  - apply (@C61_hmc (FNum DF) EL g_16 SLevel slevels_shift slevels_values (fun _ _ w => (None, w))
             (fun _ _ _ => eq_refl) hmc_levels).
Qed.
