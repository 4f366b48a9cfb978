(** Runs of the two modes of de (C23). *)
From Coq Require Import Floats.
From Verif Require Import Base Num NumF Env Common DE CPSO NA Hoare EvalRules Gen Steps Hist Runs
  Best Inst Valid PropPop Demo ExPop Modes.

Section ModesEx.
  Variable F : FloatFuns.
  Notation NF := (FNum F).

  Definition de_mode (u : string) (workers : Z) (backend : option string) : @DEArgs NF :=
    @mkDEArgs NF
      (@mkArgs NF true (b11 F) (Some (@D2 (FArith F) 2 x0_mat)) true 2 4 (Some 0%Z) 0%float (-1)%float
               None workers backend false 1%float CbNone)
      0.5%float 1%float "best1bin" u.
  Definition mode_evals (u : string) (workers : Z) (backend : option string) :=
    evals (tr (snd (@exec NF (DemoEnv F f_sphere) _
                          (@de_minimize NF (DemoEnv F f_sphere) (de_mode u workers backend)) w_def
                          (Some x0_mat)))).

  Definition row6 (l : list (list float * float)) : float := nth 0 (fst (nth 5 l ([], 0%float))) 9%float.

  (** The sixth evaluation of the run with updating="immediate" differs from that of the deferred
      one; workers=4 with updating="immediate" is the deferred run, also with an unknown backend. *)
  Theorem C23_runs :
    row6 (mode_evals "immediate" 1 None) = 0.5%float /\
    row6 (mode_evals "deferred" 1 None) = (-0.125)%float /\
    row6 (mode_evals "immediate" 4 None) = (-0.125)%float /\
    mode_evals "immediate" 4 (Some "dask"%string) = mode_evals "deferred" 1 None /\
    ~ Deferred "immediate" (dea (de_mode "immediate" 1 None)) /\
    Deferred "immediate" (dea (de_mode "immediate" 4 None)) /\
    UnknownBackend (Some "dask"%string).
  Proof.
    split; [vm_compute; reflexivity|]. split; [vm_compute; reflexivity|].
    split; [vm_compute; reflexivity|]. split; [vm_compute; reflexivity|].
    split; [intros [H|[H|H]]; try discriminate; apply H; cbn; tauto|].
    split; [right; left; cbn; lia|].
    exists "dask"%string. split; [reflexivity|]. cbn. intros H.
    repeat (destruct H as [H|H]; [discriminate|]); exact H.
  Qed.
End ModesEx.
