(** C83: runs of pso in which one starting particle has a NaN coordinate that the objective does not look at. *)
From Coq Require Import Floats.
From Verif Require Import Base Num NumR NumE NumF Env Common DE CPSO NA Sample Hoare EvalRules Gen Steps Hist Runs Best
  Inst HistFacts HistBest PropPop Laws Valid Safe Feas Trial Restart Flight Demo ExPop Wall WallEx Poison PoisonEx Infect.

Definition x0_nan (k : nat) : @nd (@num_arith (FNum DF)) :=
  @D2 (FArith DF) 2 (upd k [nan; 0.25] [[0.5; 0.5]; [0.75; -0.5]; [-1; 1]])%float.
(** [k]: the particle with the NaN; its value is the best one *)
Definition pso_nan (k : nat) (con : option string) (u : string) : @PSOArgs (FNum DF) :=
  @mkPSOArgs (FNum DF) (demo_args DF (Some (x0_nan k)) 4 3 (-1)%float (-1)%float con false 1%float)
    0.75%float 1.5%float 1.5%float u.
Definition run_pso_nan k con u :=
  @exec (FNum DF) (DemoEnv DF f_second) _ (@pso_minimize (FNum DF) (DemoEnv DF f_second) (pso_nan k con u)) w0 None.

(** all hypotheses; initially one particle is NaN, afterwards all are, while all values are numbers *)
Theorem C83_runs k con u : In k [0; 1; 2] -> In con [None; Some "Shrink"%string] -> In u ["immediate"; "deferred"]%string ->
  (exists rows, a_bounds (psa (pso_nan k con u)) = D2 2 rows) /\
  (forall x, a_x0 (psa (pso_nan k con u)) = Some x -> nd_wf x) /\
  a_backend (psa (pso_nan k con u)) <> Some "mpi"%string /\ one_worker (a_workers (psa (pso_nan k con u))) = true /\
  exists res st', run_pso_nan k con u = (inl res, st') /\
    @OnlyBest (FNum DF) 3 (evals (tr st')) k /\ @NanAt (FNum DF) 0 (@pnt (FNum DF) (evals (tr st')) k) /\
    length (evals (tr st')) = 12 /\
    map (fun z => isnan (nth 0 (fst z) 0%float)) (evals (tr st')) = upd k true (repeat false 3) ++ repeat true 9 /\
    isnan (nth 0 (r_x res) 0%float) = true /\ isnan (r_fun res) = false.
Proof.
  intros Hk Hc Hu. split; [eexists; reflexivity|]. split.
  { intros x Hx. injection Hx as <-. destruct Hk as [<-|[<-|[<-|[]]]]; repeat constructor. }
  split; [discriminate|]. split; [reflexivity|].
  set (Q := fun (r : @OptRes (FNum DF)) (t : @St (FNum DF) (DemoEnv DF f_second)) =>
    forallb (fun i => (i =? k) || PrimFloat.ltb (@valu (FNum DF) (evals (tr t)) k) (@valu (FNum DF) (evals (tr t)) i)) [0; 1; 2] &&
    PrimFloat.leb (@valu (FNum DF) (evals (tr t)) k) (@valu (FNum DF) (evals (tr t)) k) &&
    ((0 <? length (@pnt (FNum DF) (evals (tr t)) k)) &&
      negb (PrimFloat.leb (nth 0 (@pnt (FNum DF) (evals (tr t)) k) 0%float) (nth 0 (@pnt (FNum DF) (evals (tr t)) k) 0%float))) &&
    (length (evals (tr t)) =? 12) &&
    forallb (fun b => b) (map2 Bool.eqb (map (fun z => isnan (nth 0 (fst z) 0%float)) (evals (tr t))) (upd k true (repeat false 3) ++ repeat true 9)) &&
    (isnan (nth 0 (r_x r) 0%float) && negb (isnan (r_fun r)))).
  assert (HQ : match run_pso_nan k con u with (inl r, t) => Q r t | _ => false end = true).
  { destruct Hk as [<-|[<-|[<-|[]]]]; destruct Hc as [<-|[<-|[]]]; destruct Hu as [<-|[<-|[]]]; vm_compute; reflexivity. }
  clear Hc Hu. destruct (run_pso_nan k con u) as [[r|e] t]; [|discriminate]. exists r, t. split; [reflexivity|].
  unfold Q in HQ. rewrite !andb_true_iff, Nat.eqb_eq in HQ. destruct HQ as [[[[[H1 H2] [H3 H4]] H5] H6] [H7 H8]].
  assert (Hk3 : k < 3) by (destruct Hk as [<-|[<-|[<-|[]]]]; lia).
  split; [|split; [|split; [exact H5|split; [|split; [exact H7|destruct (isnan (r_fun r)); [discriminate|reflexivity]]]]]].
  - split; [exact Hk3|]. split; [exact H2|]. intros i Hi Hne. rewrite forallb_forall in H1.
    specialize (H1 i ltac:(destruct i as [|[|[|i]]]; cbn; auto; lia)). apply orb_true_iff in H1.
    destruct H1 as [H1|H1]; [apply Nat.eqb_eq in H1; congruence|exact H1].
  - split; [apply Nat.ltb_lt, H3|]. intro Hn. change (PrimFloat.leb (nth 0 (@pnt (FNum DF) (evals (tr t)) k) 0%float) (nth 0 (@pnt (FNum DF) (evals (tr t)) k) 0%float) = true) in Hn.
    rewrite Hn in H4. discriminate.
  - clear - H5 H6 Hk3. revert H5 H6. generalize (evals (tr t)). intros l H5 H6.
    assert (HG : forall a b : list bool, length a = length b -> forallb (fun b => b) (map2 Bool.eqb a b) = true -> a = b).
    { induction a as [|x a IH]; intros [|y b] HL HB; try discriminate; [reflexivity|]. cbn in HB.
      apply andb_true_iff in HB. destruct HB as [HB1 HB2]. apply eqb_prop in HB1. f_equal; [exact HB1|].
      apply IH; [injection HL; auto|exact HB2]. }
    apply HG; [|exact H6]. rewrite map_length, app_length, upd_length, !repeat_length. exact H5.
Qed.
