(** C73: runs from a collapsed initial population. *)
From Coq Require Import Reals Lra Floats.
From Verif Require Import Base Num NumR NumE NumF Env Common DE CPSO NA Hoare EvalRules Gen Steps Hist Runs
  Best Inst Laws Safe Feas FeasPso PlainEnv Valid Accept Enough Disc PropPop Calm FeasEx CalmEx Demo ExPop ExCma ExFeas
  FirstPop Trial Flight Replay ReplayEx Keeps Hull HullEx Collapse.
Open Scope R_scope.

(** six times the same point, three generations *)
Definition cpoint : list R := [1; -2; 3].
Definition cx0 : @nd (@num_arith ENum) := @D2 EArith 3 (repeat (map Fin cpoint) 6).
Definition c_de (s u : string) : @DEArgs ENum :=
  mkDEArgs (@mkArgs ENum true (@D2 EArith 2 hbox) (Some cx0) true 3 6 (Some 0%Z) (Fin 0) NaN None 1 None false (Fin 1) CbNone)
           (Fin (1/2)) (Fin (1/2)) s u.
Definition c_pso (u : string) : @CPSOArgs ENum :=
  mkCPSOArgs (@mkArgs ENum true (@D2 EArith 2 hbox) (Some cx0) true 3 6 (Some 0%Z) (Fin 0) NaN None 1 None false (Fin 1) CbNone)
           (Fin (1/2)) (Fin 1) (Fin 1) None u.

Theorem C73_collapsed_runs s u w a0 :
  In s ["rand1bin"; "rand2bin"; "best1bin"; "best2bin"]%string -> In u ["immediate"; "deferred"]%string ->
  let E := EE (fun _ => Fin 1) in
  (exists res st', exec (de_minimize (c_de s u)) w a0 = (inl res, st') /\ length (evals (tr st')) = 18%nat /\
     AllAt cpoint (firstn 6 (evals (tr st'))) /\ AllAt cpoint (evals (tr st'))) /\
  (exists res st', exec (cpso_minimize (c_pso u)) w a0 = (inl res, st') /\ length (evals (tr st')) = 18%nat /\
     AllAt cpoint (firstn 6 (evals (tr st'))) /\ AllAt cpoint (evals (tr st'))).
Proof.
  intros Hs Hu E. split.
  - set (A := c_de s u).
    assert (Hwf : forall x, a_x0 (dea A) = Some x -> nd_wf x).
    { intros x Hx. injection Hx as <-. repeat constructor. }
    assert (Hmpi : a_backend (dea A) <> Some "mpi"%string) by discriminate.
    destruct (C56_exact_returns (EE_OK (fun _ => Fin 1)) (CallDE A) w a0) as (res & st' & Hx).
    { split; [intros H; discriminate H|]. split; [|split; [|split; [|split]]].
      - constructor; [|split|split|exact Hs|exact Hu|left; reflexivity].
        + constructor; try reflexivity; [|discriminate|discriminate].
          exists 3%nat. split; [exists hbox; split; reflexivity|]. exists (repeat (map Fin cpoint) 6). split; reflexivity.
        + cbn. unfold Rlit. cbn. rb. lra.
        + cbn. unfold Rlit. cbn. rb. lra.
        + cbn. unfold Rlit. cbn. rb. lra.
        + cbn. unfold Rlit. cbn. rb. lra.
      - unfold HasDim. cbn. lia.
      - intros _. reflexivity.
      - destruct Hs as [<-|[<-|[<-|[<-|[]]]]]; vm_compute; discriminate.
      - intros _. apply fin_range. repeat constructor; eexists; eexists; reflexivity. }
    { apply EE_no_raise. }
    exists res, st'. split; [exact Hx|].
    pose proof (nit_all _ (CallDE A) w a0 res st' eq_refl Hx ltac:(cbn; lia)) as Hnit.
    destruct (C02_nfev_population (CallDE A) w a0 res st' (EE_OK _) Hmpi Hx) as (H1 & H2 & H3).
    assert (Hlen : length (evals (tr st')) = 18%nat) by (cbn in Hnit; rewrite Hnit in H2; cbn in H2; lia).
    split; [exact Hlen|].
    assert (HA : AllAt cpoint (firstn 6 (evals (tr st')))).
    { refine (x0_evals (EE_OK _) (CallDE A) cx0 w a0 res st' (fun x => x = map Fin cpoint) Hmpi eq_refl I Hx _). repeat constructor. }
    split; [exact HA|].
    exact (proj1 (C73_collapsed_de (EE_OK _) A hbox w a0 res st' cpoint eq_refl Hwf Hmpi eq_refl eq_refl Hx HA)).
  - set (A := c_pso u).
    assert (Hwf : forall x, a_x0 (pa A) = Some x -> nd_wf x).
    { intros x Hx. injection Hx as <-. repeat constructor. }
    assert (Hmpi : a_backend (pa A) <> Some "mpi"%string) by discriminate.
    destruct (C56_exact_returns (EE_OK (fun _ => Fin 1)) (CallCPSO A) w a0) as (res & st' & Hx).
    { split; [intros H; discriminate H|]. split; [|split; [intros _; reflexivity|intros H; destruct H; reflexivity]].
      constructor; [|split|split|split|exact I|exact Hu|left; reflexivity].
      - constructor; try reflexivity; [|discriminate|discriminate].
        exists 3%nat. split; [exists hbox; split; reflexivity|]. exists (repeat (map Fin cpoint) 6). split; reflexivity.
      - cbn. unfold Rlit. cbn. rb. lra.
      - cbn. unfold Rlit. cbn. rb. lra.
      - cbn. unfold Rlit. cbn. rb. lra.
      - cbn. unfold Rlit. cbn. rb. lra.
      - cbn. unfold Rlit. cbn. rb. lra.
      - cbn. unfold Rlit. cbn. rb. lra. }
    { apply EE_no_raise. }
    exists res, st'. split; [exact Hx|].
    pose proof (nit_all _ (CallCPSO A) w a0 res st' eq_refl Hx ltac:(cbn; lia)) as Hnit.
    destruct (C02_nfev_population (CallCPSO A) w a0 res st' (EE_OK _) Hmpi Hx) as (H1 & H2 & H3).
    assert (Hlen : length (evals (tr st')) = 18%nat) by (cbn in Hnit; rewrite Hnit in H2; cbn in H2; lia).
    split; [exact Hlen|].
    assert (HA : AllAt cpoint (firstn 6 (evals (tr st')))).
    { refine (x0_evals (EE_OK _) (CallCPSO A) cx0 w a0 res st' (fun x => x = map Fin cpoint) Hmpi eq_refl I Hx _). repeat constructor. }
    split; [exact HA|].
    exact (proj1 (C73_collapsed_cpso (EE_OK _) A hbox w a0 res st' cpoint eq_refl Hwf Hmpi eq_refl eq_refl eq_refl Hx HA)).
Qed.
