(** Calls of minimize and sample in binary64: instances of the hypotheses of Dispatch.v (C43),
    a zero competitivity (C16), na called through minimize (C45). *)
From Coq Require Import Floats.
From Verif Require Import Base Num NumF Env Common DE CPSO NA Mat CMAES VDCMA Sample Call Dispatch
  Hoare EvalRules Gen Steps Hist Runs Best Inst Valid Accept PropPop Demo ExPop.

Section DispEx.
  Variable F : FloatFuns.
  Notation NF := (FNum F).

  Section AnyEnv.
    Context {E : Env NF}.
    Notation V := (@Val NF).

    (** minimize(f, bounds, options={"popsize": 5, "mutation": 1}): every parameter *)
    Definition opts1 : list (string * V) := [("popsize", VInt 5); ("mutation", VInt 1)]%string.
    Definition de_by_default : @DEArgs NF :=
      @mkDEArgs NF (@mkArgs NF true (b11 F) None true 100 5 None (f_lit 1 (-8)) (f_lit 1 (-8)) None 1
                            None false (f_lit 1 0) CbNone)
        (f_lit 1 0) (f_lit 9 (-1)) "best1bin" "immediate".
    Theorem C43_example args :
      @Known NF "de" opts1 /\
      minimize VFun (VSeq (b11 F)) VNone args "de" (Some opts1) VNone
      = Some (de_minimize de_by_default).
    Proof.
      assert (HK : @Known NF "de" opts1).
      { split; [|repeat constructor; cbn; tauto].
        repeat constructor; cbn; intros H; repeat (destruct H as [H|H]; [discriminate|]); exact H. }
      split; [exact HK|]. apply C43_de; [exact HK| | | | |].
      2:{ exists (VInt 1). split; [apply maps_in; cbn; tauto|]. right. exists 1%Z. split; reflexivity. }
      2,3,4: eexists; split; [apply maps_default; cbn; intros H;
               repeat (destruct H as [H|H]; [discriminate|]); exact H|first [reflexivity|left; reflexivity]].
      constructor.
      - split; reflexivity.
      - right. reflexivity.
      - split; reflexivity.
      - eexists; split; [apply maps_default; cbn; intros H;
               repeat (destruct H as [H|H]; [discriminate|]); exact H|reflexivity].
      - exists (VInt 5). split; [apply maps_in; cbn; tauto|reflexivity].
      - eexists; split; [apply maps_default; cbn; intros H;
               repeat (destruct H as [H|H]; [discriminate|]); exact H|reflexivity].
      - eexists; split; [apply maps_default; cbn; intros H;
               repeat (destruct H as [H|H]; [discriminate|]); exact H|left; reflexivity].
      - eexists; split; [apply maps_default; cbn; intros H;
               repeat (destruct H as [H|H]; [discriminate|]); exact H|left; reflexivity].
      - eexists; split; [apply maps_default; cbn; intros H;
               repeat (destruct H as [H|H]; [discriminate|]); exact H|reflexivity].
      - eexists; split; [apply maps_default; cbn; intros H;
               repeat (destruct H as [H|H]; [discriminate|]); exact H|reflexivity].
      - eexists; split; [apply maps_default; cbn; intros H;
               repeat (destruct H as [H|H]; [discriminate|]); exact H|reflexivity].
      - eexists; split; [apply maps_default; cbn; intros H;
               repeat (destruct H as [H|H]; [discriminate|]); exact H|reflexivity].
      - eexists; split; [apply maps_default; cbn; intros H;
               repeat (destruct H as [H|H]; [discriminate|]); exact H|left; reflexivity].
      - reflexivity.
    Qed.

    (** An option of another solver, and a parameter that is not an option. *)
    Theorem C43_wrong_options b x0 args cb :
      Raises (minimize VFun b x0 args "de" (Some [("sigma"%string, VInt 1)]) cb) TypeError
      /\ Raises (minimize VFun b x0 args "de" (Some [("callback"%string, VNone)]) cb) TypeError
      /\ Raises (minimize VFun b x0 args "pso" (Some [("competitivity"%string, VNone)]) cb) TypeError
      /\ Raises (minimize VFun b x0 args "DE" None cb) KeyError.
    Proof.
      repeat split; [eapply (C43_bad_option _ _ _ _ _ _ _ "sigma")
                    |eapply (C43_bad_option _ _ _ _ _ _ _ "callback")
                    |eapply (C43_bad_option _ _ _ _ _ _ _ "competitivity")
                    |apply C43_unknown_method];
        try (cbn; tauto); cbn; intros H; repeat (destruct H as [H|H]; [discriminate|]); exact H.
    Qed.

    (** pso is cpso with competitivity None, 0 or -0.0 *)
    Theorem C16_binary64 fn b x0 args (opts : list (string * V)) cb v :
      Dict opts -> ~ In "competitivity"%string (map fst opts) ->
      v = VNone \/ v = VInt 0 \/ v = VFloat (0%float : @T (@num_arith NF))
      \/ v = VFloat ((-0)%float : @T (@num_arith NF)) ->
      SameCall (minimize fn b x0 args "pso" (Some opts) cb)
               (minimize fn b x0 args "cpso" (Some (("competitivity"%string, v) :: opts)) cb).
    Proof.
      intros HD Hc [->|[->|[-> | ->]]].
      - apply (C16_pso_is_cpso (N:=NF) _ _ _ _ _ _ VNone None HD Hc eq_refl I).
      - apply (C16_pso_is_cpso (N:=NF) _ _ _ _ _ _ (VInt 0) (Some (@nZ (@num_arith NF) 0)) HD Hc).
        + right. exists 0%Z. split; reflexivity.
        + split; reflexivity.
      - apply (C16_pso_is_cpso (N:=NF) _ _ _ _ _ _ _ (Some (0%float : @T (@num_arith NF))) HD Hc).
        + left. reflexivity.
        + split; reflexivity.
      - apply (C16_pso_is_cpso (N:=NF) _ _ _ _ _ _ _ (Some ((-0)%float : @T (@num_arith NF))) HD Hc).
        + left. reflexivity.
        + split; reflexivity.
    Qed.

    (** na through minimize: the missing callback is None, so that the arguments are valid and the
        objective gets evaluated; the direct call with the same arguments raises ValueError. *)
    Theorem C45_minimize_na (rows : list (list float)) z (args : V) w a0 :
      @EnvOK NF E ->
      (exists m, minimize (N:=NF) VFun (VArr (@D2 (@num_arith NF) 2 rows)) VNone args "na"
                   (Some [("maxiter"%string, VInt z)]) VNone = Some m /\ FirstEval m w a0)
      /\ (exists m (s : @St NF E), call_optimizer (N:=NF) O_na [VFun; VArr (@D2 (@num_arith NF) 2 rows)]
                        [("maxiter"%string, VInt z)] = Some m
                      /\ exec m w a0 = (inr ValueError, s) /\ tr s = []).
    Proof.
      intros HE. split.
      - eexists. split; [reflexivity|]. apply C22_accepted_na; [exact HE| |vm_compute; discriminate].
        constructor; [|vm_compute; auto]. constructor; cbn.
        + reflexivity.
        + exists (length rows). split; [|exact I]. exists rows. split; reflexivity.
        + lia.
        + discriminate.
      - destruct (call_optimizer (N:=NF) O_na [VFun; VArr (@D2 (@num_arith NF) 2 rows)]
                    [("maxiter"%string, VInt z)]) as [m|] eqn:Hm; [|discriminate].
        exists m. destruct (C45_direct_na (N:=NF) (VArr (@D2 (@num_arith NF) 2 rows)) [("maxiter"%string, VInt z)] m ltac:(repeat constructor; intros [])
                              ltac:(repeat constructor; cbn; tauto) Hm w a0) as [s Hs].
        exists s. split; [reflexivity|exact Hs].
    Qed.
  End AnyEnv.
End DispEx.
