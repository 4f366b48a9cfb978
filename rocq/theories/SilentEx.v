(** C50: runs without a callback that return and that raise. *)
From Coq Require Import Floats.
From Verif Require Import Base Num NumF Env Common DE Sample Hoare Demo ExPop ExSamp Silent.

Definition f_raising (x : list float) : float + nat :=
  if PrimFloat.ltb 0.375 (nth 0 x 0%float) then inr 7 else f_sphere x.
Definition qargs (x0 : list float) : @SArgs NDF :=
  @mkSArgs NDF true (@D2 (FArith DF) 2 [[-1; 1]; [-1; 1]]%float) (Some (@D1 (FArith DF) x0)) 4
    (@D0 (FArith DF) 0.5%float) false None None true CbNone.
Definition mcq x0 : @MCArgs NDF := @mkMCArgs NDF (qargs x0) 1%float.
Definition hmq x0 : @HMCArgs NDF := @mkHMCArgs NDF (qargs x0) 1 JacNone 0.03125%float.
Definition wq := script [0.5; 0.5; 0.5]%float [0.25; 0; 2; 0; 1; 0; 0; 0]%float.
Definition wq0 := script [0.5; 0.5; 0.5]%float [0.25; 0; 0; 0; 0; 0.25]%float.
(** how the run ended and how many evaluations it made *)
Definition ended {A} (r : (A + Exn) * @St NDF (DemoEnv DF f_raising)) : bool * nat :=
  (match fst r with inl _ => true | inr _ => false end, length (tr (snd r))).

Theorem C50_silent_runs :
  (forall x0, s_has_cb (mca (mcq x0)) = false /\ s_has_cb (hma (hmq x0)) = false) /\
  ended (@exec NDF (DemoEnv DF f_raising) _ (@mcmc_sample NDF (DemoEnv DF f_raising) (mcq [-4; 0]%float)) wq None) = (true, 4) /\
  ended (@exec NDF (DemoEnv DF f_raising) _ (@mcmc_sample NDF (DemoEnv DF f_raising) (mcq [0; 0]%float)) wq None) = (false, 3) /\
  ended (@exec NDF (DemoEnv DF f_raising) _ (@hmc_sample NDF (DemoEnv DF f_raising) (hmq [0; 0]%float)) wq0 None) = (true, 43) /\
  ended (@exec NDF (DemoEnv DF f_raising) _ (@hmc_sample NDF (DemoEnv DF f_raising) (hmq [0.25; 0]%float)) wq None) = (false, 20).
Proof. split; [split; reflexivity|]. repeat split; vm_compute; reflexivity. Qed.
