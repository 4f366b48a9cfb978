(** Runs of de, computed by the kernel, that meet the hypotheses of C14, C20, C21 and C53.
    Binary64, any C library. *)
From Coq Require Import Floats.
From Verif Require Import Base Num NumF Env Common DE CPSO NA Mat CMAES VDCMA Sample Hoare EvalRules
  Gen Steps Hist Runs Best Inst HistFacts HistBest PropPop PropRec Demo ExPop Valid Safe Feas FirstPop
  Strat Trial Enough.

Section ExDE.
  Variable F : FloatFuns.
  Notation NF := (FNum F).

  Definition de_call (x0 : option (@nd (@num_arith NF))) (pop : Z) (strategy updating : string) : @DEArgs NF :=
    @mkDEArgs NF (demo_args F x0 3 pop 0.0009765625%float 0%float (Some "Random"%string) false 1%float)
              0.5%float 0.5%float strategy updating.

  Definition x0_4 : @nd (@num_arith NF) :=
    @D2 (FArith F) 2 [[0.5; -0.5]; [0.25; 0.75]; [-0.125; 1]; [-1; 0.0625]]%float.

  Lemma de_call_valid x0 pop s u :
    match x0 with None => True | Some x => exists m, x = @D2 (FArith F) 2 m /\ Z.of_nat (length m) = pop end ->
    (2 <= pop)%Z -> In s ["rand1bin"; "rand2bin"; "best1bin"; "best2bin"]%string ->
    In u ["immediate"; "deferred"]%string -> @ValidDE NF (de_call x0 pop s u).
  Proof.
    intros Hx Hp Hs Hu. constructor; cbn; auto.
    - constructor; cbn; auto; [|discriminate]. exists 2. split.
      + exists [[-1; 1]; [-1; 1]]%float. split; reflexivity.
      + exact Hx.
    - split; vm_compute; reflexivity.
    - split; vm_compute; reflexivity.
  Qed.

  Definition run_of (A : @DEArgs NF) :=
    @exec NF (DemoEnv F f_sphere) _ (@de_minimize NF (DemoEnv F f_sphere) A) w0 None.

  (** *** C20 *)
  Theorem C20_too_few_run :
    @ValidDE NF (de_call None 3 "rand1bin" "immediate") /\
    (exists st', run_of (de_call None 3 "rand1bin" "immediate") = (inr IndexError, st') /\ ncalls (tr st') = 3) /\
    (exists st', run_of (de_call None 5 "rand2bin" "deferred") = (inr IndexError, st') /\ ncalls (tr st') = 5).
  Proof.
    split; [apply de_call_valid; cbn; auto; lia|].
    split.
    - destruct (@raised NF (DemoEnv F f_sphere) _ (@de_minimize NF (DemoEnv F f_sphere) (de_call None 3 "rand1bin" "immediate"))
        w0 None IndexError (fun s => Nat.eqb (ncalls (tr s)) 3) ltac:(vm_compute; reflexivity)) as (s & H1 & H2).
      exists s. split; [exact H1|apply Nat.eqb_eq, H2].
    - destruct (@raised NF (DemoEnv F f_sphere) _ (@de_minimize NF (DemoEnv F f_sphere) (de_call None 5 "rand2bin" "deferred"))
        w0 None IndexError (fun s => Nat.eqb (ncalls (tr s)) 5) ltac:(vm_compute; reflexivity)) as (s & H1 & H2).
      exists s. split; [exact H1|apply Nat.eqb_eq, H2].
  Qed.

  (** *** C20 (enough individuals), C21, C53: runs that return, from a given population, with both
      kinds of updating; some trial is accepted, some is not *)
  Definition improved (t : list (@event (FArith F))) : bool :=
    match evals t with
    | z0 :: z1 :: z2 :: z3 :: (z4 :: z5 :: z6 :: z7 :: _) =>
        PrimFloat.ltb (snd z4) (snd z0) || PrimFloat.ltb (snd z5) (snd z1)
        || PrimFloat.ltb (snd z6) (snd z2) || PrimFloat.ltb (snd z7) (snd z3)
    | _ => false
    end.
  Lemma x0_4_wf : @nd_wf NF x0_4.
  Proof. cbn. repeat constructor. Qed.
  Theorem C21_runs u s : In u ["immediate"; "deferred"]%string -> In s ["rand1bin"; "best1bin"]%string ->
    @ValidDE NF (de_call (Some x0_4) 4 s u) /\
    exists res st', run_of (de_call (Some x0_4) 4 s u) = (inl res, st') /\
      ncalls (tr st') = 12 /\ improved (tr st') = true /\ firstn 4 (points (tr st')) = @nd_rows NF x0_4.
  Proof.
    intros Hu Hs.
    split. { apply de_call_valid; [exists (@nd_rows NF x0_4); split; reflexivity|lia|cbn in *; tauto|exact Hu]. }
    assert (H : forall A, (match run_of A with
       | (inl r, t) => Nat.eqb (ncalls (tr t)) 12 && improved (tr t) | _ => false end = true) ->
       match run_of A with
       | (inl r, t) => firstn 4 (points (tr t)) = @nd_rows NF x0_4 | _ => True end ->
       exists res st', run_of A = (inl res, st') /\ ncalls (tr st') = 12 /\ improved (tr st') = true /\
         firstn 4 (points (tr st')) = @nd_rows NF x0_4).
    { intros A H1 H2. destruct (run_of A) as [[r|e] t]; [|discriminate].
      apply andb_true_iff in H1. destruct H1 as [H1 H3]. apply Nat.eqb_eq in H1. exists r, t. auto. }
    destruct Hu as [<-|[<-|[]]]; destruct Hs as [<-|[<-|[]]]; apply H; vm_compute; reflexivity.
  Qed.
End ExDE.
