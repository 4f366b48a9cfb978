(** Runs that meet the hypotheses of the theorems of Dims.v, computed by the kernel: a run of de
    that ends in an exception of the objective. *)
From Coq Require Import Floats.
From Verif Require Import Base Num NumF Env Common DE CPSO NA Hoare EvalRules Gen Steps Hist Runs Best Inst
  HistFacts HistBest PropPop PropRec Demo ExPop Valid Safe Feas ExDE Dims.

Section DimsEx.
  Variable F : FloatFuns.
  Notation NF := (FNum F).

  (** The sphere, with an exception where the first coordinate is 0.34375. *)
  Definition f_trap (x : list float) : float + nat :=
    match x with
    | a :: _ => if PrimFloat.eqb a 0.34375%float then inr 7 else f_sphere x
    | [] => inr 8
    end.

  Definition de_trap : @DEArgs NF := @de_call F (Some (x0_4 F)) 4 "rand1bin" "deferred".

  (** Ten points and two callbacks, then the exception. *)
  Theorem C52_run :
    exists st', @exec NF (DemoEnv F f_trap) _ (@de_minimize NF (DemoEnv F f_trap) de_trap) w0 None = (inr (UserError 7), st') /\
      length (points (tr st')) = 10 /\ length (cbs (tr st')) = 2 /\ @Shaped NF 2 4 (tr st').
  Proof.
    destruct (@raised NF (DemoEnv F f_trap) _ (@de_minimize NF (DemoEnv F f_trap) de_trap) w0 None (UserError 7)
      (fun s => Nat.eqb (length (points (tr s))) 10 && Nat.eqb (length (cbs (tr s))) 2) ltac:(vm_compute; reflexivity))
      as (s & H1 & H2).
    apply andb_true_iff in H2. destruct H2 as [H2 H3]. apply Nat.eqb_eq in H2, H3.
    exists s. split; [exact H1|]. split; [exact H2|]. split; [exact H3|].
    refine (@C52_de NF (DemoEnv F f_trap) (DemoEnv_OK F f_trap) de_trap w0 None _ s _ H1).
    intros x Hx. injection Hx as <-. apply x0_4_wf.
  Qed.
End DimsEx.
