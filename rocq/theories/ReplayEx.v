(** C69: calls that meet the hypotheses, and a swarm that comes to rest on a wall. *)
From Coq Require Import Reals Lra Floats.
From Verif Require Import Base Num NumR NumE NumF Env Common DE CPSO NA Hoare EvalRules Gen Steps Hist Runs
  Best Inst Laws Safe Feas FeasPso PlainEnv Valid Accept Enough Disc PropPop Calm FeasEx CalmEx Demo ExPop ExCma ExFeas
  Trial Flight Replay.
Open Scope R_scope.

(** ** Exact arithmetic: a run of three generations of four particles (no value is <= a NaN [ftol]) *)
Definition r_args (u : string) x0 : @PSOArgs ENum :=
  @mkPSOArgs ENum (@mkArgs ENum true (@D2 EArith 2 ebox) x0 true 3 4 (Some 0%Z) (Fin 0) NaN
                     (Some "Shrink"%string) 1 None true (Fin 1) CbFun) (Fin (1/2)) (Fin 1) (Fin 1) u.

Theorem C69_hypotheses u x0 w a0 : In u ["immediate"; "deferred"]%string -> x0 = Some ex0 \/ x0 = None ->
  let E := EE (fun _ => Fin 1) in let A := r_args u x0 in
  a_bounds (psa A) = D2 2 ebox /\ a_constraints (psa A) = Some "Shrink"%string /\ FiniteBox ebox /\
  (forall x, a_x0 (psa A) = Some x -> nd_wf x /\ Forall (FBox ebox) (nd_rows x)) /\
  a_backend (psa A) <> Some "mpi"%string /\ one_worker (a_workers (psa A)) = true /\
  exists res st', exec (pso_minimize A) w a0 = (inl res, st') /\
    length (evals (tr st')) = 12%nat /\
    Replay (mkCPSOArgs (psa A) (Fin (1/2)) (Fin 1) (Fin 1) None u) ebox 4 (String.eqb u "deferred")
           (evals (tr st')) 11.
Proof.
  intros Hu Hx0 E A.
  assert (Hwf : forall x, a_x0 (psa A) = Some x -> nd_wf x /\ Forall (FBox ebox) (nd_rows x)).
  { destruct Hx0 as [-> | ->]; cbn; [|discriminate]. intros x Hx. injection Hx as <-. split; [|apply ex0_inside].
    cbn. repeat constructor. }
  repeat (split; [first [exact Hwf | exact ebox_finite | discriminate | reflexivity]|]).
  destruct (C56_exact_returns (EE_OK _) (CallPSO A) w a0) as (res & st' & Hx).
  { split.
    - intros _. cbn. split; [lia|]. exists 1. split; [reflexivity|lra].
    - destruct within_ex as (W1 & W2 & W3 & W4 & W5). split; [|intros _; destruct Hx0 as [-> | ->]; reflexivity].
      constructor; try exact W1; try exact W2; try exact W3; try exact W4; try exact I.
      + destruct (eargs_valid (Some "Shrink"%string)) as [V1 V2].
        destruct Hx0 as [-> | ->]; [destruct V1|destruct V2]; constructor; assumption.
      + exact Hu.
      + cbn. auto.
  }
  { apply EE_no_raise. }
  exists res, st'. split; [exact Hx|].
  destruct (C69_replay (EE_OK _) A ebox w a0 res st' eq_refl eq_refl ebox_finite Hwf ltac:(discriminate) eq_refl Hx)
    as (HR & _ & Hlen).
  change (Z.to_nat (a_popsize (psa A))) with 4%nat in *.
  assert (Hnit : r_nit res = 3%Z).
  { pose proof (C01_nit_population (CallPSO A) w a0 res st' (EE_OK _) Hx) as Hn.
    destruct (C04_status_population (CallPSO A) w a0 res st' (EE_OK _) Hx) as (_ & Hs).
    destruct Hs as [(_ & _ & Hs)|[(_ & _ & Hs)|(_ & _ & Hs)]].
    1,2: exfalso; change (er_leb (r_fun res) NaN = true) in Hs; destruct (r_fun res : er); discriminate.
    change (a_maxiter (pop_args (CallPSO A))) with 3%Z in *. lia. }
  rewrite Hnit in Hlen. split; [exact Hlen|].
  assert (Hsync : is_sync (psa_updating A) (psa A) = String.eqb u "deferred").
  { destruct Hu as [<-|[<-|[]]]; reflexivity. }
  rewrite <- Hsync. apply HR. rewrite Hlen. cbn. lia.
Qed.

(** ** Binary64: the objective is x + y on the unit square.  The better particle stays for one
    generation, the other one overtakes it and hits the wall x = 0 at y = 1/8; there it is the best
    and its velocity points out of the square.  It loses its whole velocity, the second particle
    arrives at the same point, and from then on nothing moves: the run ends at (0, 1/8) although
    the minimum is at (0, 0). *)
Definition f_sum (x : list float) : float + nat := inl (nth 0 x 0 + nth 1 x 0)%float.
Definition pso_wall (u : string) : @PopCall ND :=
  CallPSO (@mkPSOArgs ND (@mkArgs ND true (@D2 (FArith DF) 2 [[0; 1]; [0; 1]]%float)
     (Some (@D2 (FArith DF) 2 [[0.5; 0.25]; [0.25; 0.1875]]%float)) true 6 2 None
     0x1p-30%float (-1)%float (Some "Shrink"%string) 1 None false 1%float CbFun)
     0.5%float 1%float 4%float u).
Definition w_wall : Script * unit := (mkScript (repeat 0.5%float 64) [] [] [], tt).
Definition at_wall (z : list float * float) : bool :=
  PrimFloat.eqb (nth 0 (fst z) 1%float) 0%float && PrimFloat.eqb (nth 1 (fst z) 1%float) 0.125%float && PrimFloat.eqb (snd z) 0.125%float.

Theorem C69_rest_on_the_wall u : In u ["immediate"; "deferred"]%string -> exists res st',
  drun DF f_sum (pso_wall u) w_wall None = (inl res, st') /\
  r_status res = (-1)%Z /\ PrimFloat.eqb (r_fun res) 0.125%float = true /\ length (evals (tr st')) = 12%nat /\
  forallb at_wall (skipn 4 (evals (tr st'))) = true /\ f_sum [0; 0]%float = inl 0%float.
Proof.
  intros Hu.
  destruct (dran DF f_sum (pso_wall u) w_wall None (fun res st' =>
    (r_status res =? -1)%Z && PrimFloat.eqb (r_fun res) 0.125%float && (length (evals (tr st')) =? 12)%nat &&
    forallb at_wall (skipn 4 (evals (tr st')))))
    as (r & s & Hx & HP); [destruct Hu as [<-|[<-|[]]]; vm_compute; reflexivity|].
  apply andb_prop in HP. destruct HP as [HP H4]. apply andb_prop in HP. destruct HP as [HP H3].
  apply andb_prop in HP. destruct HP as [H1 H2]. apply Z.eqb_eq in H1. apply Nat.eqb_eq in H3.
  exists r, s. repeat split; auto.
Qed.
